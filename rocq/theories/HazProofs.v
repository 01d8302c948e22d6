(** Lemmas about the proportional hazards family. *)

From Coq Require Import Reals List Lra Lia Arith ZArith Bool FunctionalExtensionality.
From Coquelicot Require Import Coquelicot.
From Verif Require Import GlsModel GlsSpec GlsProofs GlsProofs2 MvnModel MvnSpec MvnProofs GlsProofs3 MvnProofs2 HazModel HazSpec.
Import ListNotations.
Local Open Scope R_scope.

(** ** Sums *)

Lemma sumf_swap a b (f : nat -> nat -> R) :
  sumf a (fun i => sumf b (fun j => f i j)) = sumf b (fun j => sumf a (fun i => f i j)).
Proof.
  induction a as [|a IH]; simpl.
  - symmetry. now apply sumf_zero.
  - rewrite IH, <- sumf_plus. reflexivity.
Qed.

Lemma isum_ris n r j f : isum (ris n r j) f = sumf n (fun i => if (r i =? j)%nat then f i else 0).
Proof.
  unfold isum, ris. rewrite <- total_sumf. generalize (seq 0 n). intros l.
  induction l as [|i l IH]; [reflexivity|]. cbn [filter map].
  destruct (r i =? j)%nat.
  - cbn [map]. unfold total in *. cbn [fold_right]. rewrite IH. reflexivity.
  - unfold total in *. cbn [fold_right]. rewrite IH. ring.
Qed.

(** Sum over everyone whose index is below k. *)
Definition cum (n : nat) (r : nat -> nat) (k : nat) (f : nat -> R) : R :=
  sumf n (fun i => if (r i <? k)%nat then f i else 0).

Lemma cum_0 n r f : cum n r 0 f = 0.
Proof. unfold cum. apply sumf_zero. intros. reflexivity. Qed.

Lemma cum_S n r k f : cum n r (S k) f = cum n r k f + isum (ris n r k) f.
Proof.
  rewrite isum_ris. unfold cum. rewrite <- sumf_plus. apply sumf_ext. intros i _.
  destruct (Nat.ltb_spec (r i) (S k)), (Nat.ltb_spec (r i) k), (Nat.eqb_spec (r i) k); try lia; ring.
Qed.

(** Sum by event time = sum by subject. *)
Lemma by_subject n r nt delta (F : nat -> R) : (forall i, (i < n)%nat -> (r i < nt)%nat) ->
  sumf nt (fun j => isum (ris n r j) delta * F j) = sumf n (fun i => delta i * F (r i)).
Proof.
  intros Hr.
  rewrite (sumf_ext nt _ (fun j => sumf n (fun i => (if (r i =? j)%nat then delta i else 0) * F j))).
  - rewrite sumf_swap. apply sumf_ext. intros i Hi. rewrite (sumf_single nt _ (r i)); [|auto|].
    + now rewrite Nat.eqb_refl.
    + intros j _ N. destruct (Nat.eqb_spec (r i) j); [congruence|]. ring.
  - intros j _. rewrite isum_ris. rewrite Rmult_comm, <- sumf_scal. apply sumf_ext. intros i _. ring.
Qed.

(** Sum over the event times from position j on. *)
Lemma by_subject_from n r nt delta (F : nat -> R) j0 : (forall i, (i < n)%nat -> (r i < nt)%nat) ->
  sumf nt (fun j => if (j0 <=? j)%nat then isum (ris n r j) delta * F j else 0)
  = sumf n (fun i => if (j0 <=? r i)%nat then delta i * F (r i) else 0).
Proof.
  intros Hr.
  rewrite (sumf_ext nt _ (fun j => isum (ris n r j) delta * (if (j0 <=? j)%nat then F j else 0))).
  - rewrite by_subject by assumption. apply sumf_ext. intros i _. destruct (j0 <=? r i)%nat; ring.
  - intros j _. destruct (j0 <=? j)%nat; ring.
Qed.

Lemma list_ext {A} : forall l l' : list A, (forall j, nth_error l j = nth_error l' j) -> l = l'.
Proof.
  induction l as [|x l IH]; intros [|x' l'] H; [reflexivity|discriminate (H 0%nat)|discriminate (H 0%nat)|].
  pose proof (H 0%nat) as H0. simpl in H0. f_equal; [congruence|]. apply IH. intros j. exact (H (S j)).
Qed.

(** ** The table of times *)

Section Table.
Variables (n : nat) (time : nat -> Z) (r : nat -> nat) (ut : list Z).
Hypothesis T : table n time r ut.

Lemma r_lt i : (i < n)%nat -> (r i < length ut)%nat.
Proof. intros H. apply nth_error_Some. rewrite (tab_r _ _ _ _ T i H). discriminate. Qed.

Lemma r_le i k : (i < n)%nat -> (k < n)%nat -> (r k <= r i)%nat <-> (time i <= time k)%Z.
Proof.
  intros Hi Hk. pose proof (tab_r _ _ _ _ T i Hi) as Ei. pose proof (tab_r _ _ _ _ T k Hk) as Ek.
  destruct (lt_eq_lt_dec (r k) (r i)) as [[H|H]|H].
  - pose proof (tab_dec _ _ _ _ T _ _ _ _ H Ek Ei). lia.
  - rewrite H in Ek. assert (time i = time k) by congruence. lia.
  - pose proof (tab_dec _ _ _ _ T _ _ _ _ H Ei Ek). lia.
Qed.

Lemma r_le_time i j u : (i < n)%nat -> nth_error ut j = Some u -> (j <= r i)%nat <-> (time i <= u)%Z.
Proof.
  intros Hi Eu. pose proof (tab_r _ _ _ _ T i Hi) as Ei.
  destruct (lt_eq_lt_dec j (r i)) as [[H|H]|H].
  - pose proof (tab_dec _ _ _ _ T _ _ _ _ H Eu Ei). lia.
  - rewrite H in Eu. assert (time i = u) by congruence. lia.
  - pose proof (tab_dec _ _ _ _ T _ _ _ _ H Ei Eu). lia.
Qed.

Lemma cum_risk i f : (i < n)%nat ->
  cum n r (S (r i)) f = sumf n (fun k => if (time i <=? time k)%Z then f k else 0).
Proof.
  intros Hi. unfold cum. apply sumf_ext. intros k Hk. pose proof (r_le i k Hi Hk).
  destruct (Nat.ltb_spec (r k) (S (r i))), (Z.leb_spec (time i) (time k)); try reflexivity; lia.
Qed.

Lemma cum_pos j f : (forall i, 0 < f i) -> (j < length ut)%nat -> 0 < cum n r (S j) f.
Proof.
  intros Hf Hj. destruct (tab_all _ _ _ _ T j Hj) as (i & Hi & Er).
  unfold cum. apply Rlt_le_trans with (f i); [apply Hf|].
  replace (f i) with (sumf n (fun k => if (k =? i)%nat then f i else 0)).
  - assert (G : forall a b m, (forall k, (k < m)%nat -> a k <= b k) -> sumf m a <= sumf m b).
    { intros a b m. induction m as [|m IH]; intros H; simpl; [lra|].
      assert (a m <= b m) by (apply H; lia). assert (sumf m a <= sumf m b) by (apply IH; intros; apply H; lia). lra. }
    apply G. intros k Hk. pose proof (Hf k). destruct (Nat.eqb_spec k i) as [->|N].
    + destruct (Nat.ltb_spec (r i) (S j)); [lra|lia].
    + destruct (r k <? S j)%nat; lra.
  - rewrite (sumf_single n _ i); [now rewrite Nat.eqb_refl|assumption|].
    intros k _ N. destruct (Nat.eqb_spec k i); [contradiction|reflexivity].
Qed.
End Table.

Lemma nonzero_pos g : 0 < g -> nonzero g = true.
Proof. intros H. unfold nonzero. destruct (Req_EM_T g 0); [lra|reflexivity]. Qed.

(** ** Closed forms of the loops *)

Section Loops.
Variables (n p : nat) (X : nat -> nat -> R) (delta : nat -> R) (time : nat -> Z) (r : nat -> nat) (ut : list Z).
Hypothesis T : table n time r ut.
Variable gamma : nat -> R.
Hypothesis Hg : forall i, 0 < gamma i.
Notation nt := (length ut).
Notation G j := (cum n r (S j) gamma).
Notation B j := (fun c => cum n r (S j) (fun i => gamma i * X i c)).
Notation A j := (fun a b => cum n r (S j) (fun i => gamma i * X i a * X i b)).
Notation D j := (isum (ris n r j) delta).

Lemma llk2_loop k : (k <= nt)%nat ->
  fold_left (llk2_step n delta r gamma) (seq 0 k) (0, Some 0)
  = (cum n r k gamma, Some (- sumf k (fun j => D j * ln (G j)))).
Proof.
  induction k as [|k IH]; intros Hk.
  - simpl. rewrite cum_0. do 2 f_equal. ring.
  - rewrite seq_S, fold_left_app, IH by lia. cbn [fold_left Nat.add]. unfold llk2_step.
    rewrite <- cum_S. rewrite nonzero_pos by (eapply cum_pos; eauto; lia). do 2 f_equal. simpl. ring.
Qed.

Lemma llk2_eq : llk2 n delta r ut gamma = Some (- sumf n (fun i => delta i * ln (G (r i)))).
Proof.
  unfold llk2. rewrite llk2_loop by lia. cbn [snd]. do 2 f_equal.
  apply (by_subject n r nt delta (fun j => ln (G j))). now apply (r_lt n time).
Qed.

Lemma grad2_loop k : (k <= nt)%nat ->
  fold_left (grad2_step n X delta r gamma) (seq 0 k) (0, fun _ => 0, Some (fun _ => 0))
  = (cum n r k gamma, fun c => cum n r k (fun i => gamma i * X i c),
     Some (fun c => - sumf k (fun j => D j * (B j c / G j)))).
Proof.
  induction k as [|k IH]; intros Hk.
  - simpl. rewrite cum_0. f_equal; [f_equal|f_equal]; apply functional_extensionality; intros c; [now rewrite cum_0|ring].
  - rewrite seq_S, fold_left_app, IH by lia. cbn [fold_left Nat.add]. unfold grad2_step.
    rewrite <- cum_S. rewrite nonzero_pos by (eapply cum_pos; eauto; lia).
    f_equal; [f_equal|f_equal]; apply functional_extensionality; intros c; [now rewrite cum_S|].
    rewrite <- cum_S. simpl. ring.
Qed.

Lemma grad2_eq : grad2 n X delta r ut gamma
  = Some (fun c => - sumf n (fun i => delta i * (B (r i) c / G (r i)))).
Proof.
  unfold grad2. rewrite grad2_loop by lia. cbn [snd]. f_equal. apply functional_extensionality. intros c. f_equal.
  apply (by_subject n r nt delta (fun j => B j c / G j)). now apply (r_lt n time).
Qed.

Lemma hess_loop k : (k <= nt)%nat ->
  fold_left (hess_step n X delta r gamma) (seq 0 k) (0, fun _ => 0, fun _ _ => 0, Some (fun _ _ => 0))
  = (cum n r k gamma, fun c => cum n r k (fun i => gamma i * X i c),
     fun a b => cum n r k (fun i => gamma i * X i a * X i b),
     Some (fun a b => sumf k (fun j => D j * (B j a * B j b / G j ^ 2 - A j a b / G j)))).
Proof.
  induction k as [|k IH]; intros Hk.
  - cbn [seq fold_left]. rewrite cum_0. apply f_equal2; [apply f_equal2; [apply f_equal2|]|]; try reflexivity.
    + apply functional_extensionality; intros c; now rewrite cum_0.
    + apply functional_extensionality; intros a; apply functional_extensionality; intros b. now rewrite cum_0.
  - rewrite seq_S, fold_left_app, IH by lia. cbn [fold_left Nat.add]. unfold hess_step.
    rewrite <- cum_S. rewrite nonzero_pos by (eapply cum_pos; eauto; lia).
    apply f_equal2; [apply f_equal2; [apply f_equal2|]|apply f_equal]; try reflexivity.
    + apply functional_extensionality; intros c; now rewrite cum_S.
    + apply functional_extensionality; intros a; apply functional_extensionality; intros b. now rewrite cum_S.
    + apply functional_extensionality; intros a; apply functional_extensionality; intros b.
      rewrite <- !cum_S. cbn [sumf]. unfold Rdiv. ring.
Qed.

Lemma hess_eq :
  snd (fold_left (hess_step n X delta r gamma) (seq 0 nt) (0, fun _ => 0, fun _ _ => 0, Some (fun _ _ => 0)))
  = Some (fun a b => sumf n (fun i => delta i * (B (r i) a * B (r i) b / G (r i) ^ 2 - A (r i) a b / G (r i)))).
Proof.
  rewrite hess_loop by lia. cbn [snd]. f_equal.
  apply functional_extensionality; intros a; apply functional_extensionality; intros b.
  apply (by_subject n r nt delta (fun j => B j a * B j b / G j ^ 2 - A j a b / G j)). now apply (r_lt n time).
Qed.

Lemma prep_loop_eq : prep_loop n X delta r ut gamma = map (fun j => (D j, G j, B j)) (seq 0 nt).
Proof.
  unfold prep_loop.
  assert (L : forall k, fold_left (prep_step n X delta r gamma) (seq 0 k) (0, fun _ => 0, [])
     = (cum n r k gamma, fun c => cum n r k (fun i => gamma i * X i c), map (fun j => (D j, G j, B j)) (seq 0 k))).
  { induction k as [|k IH].
    - cbn [seq fold_left map]. rewrite cum_0. do 2 f_equal. apply functional_extensionality; intros c; now rewrite cum_0.
    - rewrite seq_S, fold_left_app, IH, map_app. cbn [fold_left Nat.add map]. unfold prep_step. rewrite <- cum_S.
      assert (E : (fun c => cum n r k (fun i => gamma i * X i c) + isum (ris n r k) (fun i => gamma i * X i c)) = B k)
        by (apply functional_extensionality; intros c; now rewrite cum_S).
      rewrite E. reflexivity. }
  rewrite L. reflexivity.
Qed.

(** Suffix sums *)
Definition from (j : nat) (F : nat -> R) : R := sumf nt (fun i => if (j <=? i)%nat then F i else 0).

Lemma from_S j F : (j < nt)%nat -> from j F = from (S j) F + F j.
Proof.
  intros Hj. unfold from.
  assert (E : F j = sumf nt (fun i => if (i =? j)%nat then F i else 0)).
  { rewrite (sumf_single nt _ j); [now rewrite Nat.eqb_refl|assumption|].
    intros i _ N. destruct (Nat.eqb_spec i j); [contradiction|reflexivity]. }
  rewrite E. rewrite <- sumf_plus. apply sumf_ext. intros i _.
  destruct (Nat.leb_spec j i), (Nat.leb_spec (S j) i), (Nat.eqb_spec i j); try lia; ring.
Qed.

Lemma from_end F : from nt F = 0.
Proof. unfold from. apply sumf_zero. intros i Hi. destruct (Nat.leb_spec nt i); [lia|reflexivity]. Qed.

Lemma prep_back_eq : prep_back (prep_loop n X delta r ut gamma)
  = map (fun j => (from j (fun i => D i / G i), from j (fun i => D i / G i ^ 2),
                   fun c => from j (fun i => B i c * D i / G i ^ 2))) (seq 0 nt).
Proof.
  rewrite prep_loop_eq.
  assert (L : forall k j, (j + k = nt)%nat -> prep_back (map (fun j => (D j, G j, B j)) (seq j k))
    = map (fun j => (from j (fun i => D i / G i), from j (fun i => D i / G i ^ 2),
                   fun c => from j (fun i => B i c * D i / G i ^ 2))) (seq j k)).
  { induction k as [|k IH]; intros j Hj; [reflexivity|]. cbn [seq map prep_back].
    rewrite IH by lia. destruct k as [|k]; cbn [seq map].
    - assert (E : S j = nt) by lia.
      assert (Z : forall F, from j F = F j) by (intros F; rewrite from_S by lia; rewrite E, from_end; ring).
      rewrite !Z. do 2 f_equal. apply functional_extensionality. intros c. now rewrite Z.
    - f_equal. rewrite !(from_S j) by lia. f_equal.
      apply functional_extensionality. intros c. now rewrite (from_S j) by lia. }
  apply L. reflexivity.
Qed.

Lemma prep_checks : (0 < nt)%nat ->
  forallb (fun e => nonzero (snd (fst e))) (prep_loop n X delta r ut gamma) = true
  /\ prep_loop n X delta r ut gamma <> [].
Proof.
  intros Hn. rewrite prep_loop_eq. split.
  - apply forallb_forall. intros e He. apply in_map_iff in He as (j & <- & Hj). apply in_seq in Hj. cbn [fst snd].
    apply nonzero_pos. eapply cum_pos; eauto. lia.
  - destruct nt; [lia|]. discriminate.
Qed.
End Loops.

(** ** In terms of subjects *)

Section Subjects.
Variables (n p : nat) (X : nat -> nat -> R) (delta : nat -> R) (time : nat -> Z) (r : nat -> nat) (ut : list Z).
Hypothesis T : table n time r ut.

Lemma haz_eta_lin coef i : haz_eta p X coef i = lin p (X i) coef.
Proof. unfold haz_eta, lin. apply nsum_sumf. Qed.

Definition gam (coef : nat -> R) (i : nat) : R := exp (lin p (X i) coef).
Lemma gam_eq coef : (fun i => exp (haz_eta p X coef i)) = gam coef.
Proof. apply functional_extensionality. intros i. unfold gam. now rewrite haz_eta_lin. Qed.
Lemma gam_pos coef i : 0 < gam coef i.
Proof. apply exp_pos. Qed.

Lemma cum_gam coef i : (i < n)%nat -> cum n r (S (r i)) (gam coef) = risk n p X time coef (time i).
Proof. intros Hi. now rewrite (cum_risk n time r ut T) by assumption. Qed.

Definition risk1 (coef : nat -> R) (t : Z) (a : nat) : R :=
  sumf n (fun k => if (t <=? time k)%Z then gam coef k * X k a else 0).
Definition risk2 (coef : nat -> R) (t : Z) (a b : nat) : R :=
  sumf n (fun k => if (t <=? time k)%Z then gam coef k * X k a * X k b else 0).

Lemma risk_pos coef i : (i < n)%nat -> 0 < risk n p X time coef (time i).
Proof.
  intros Hi. rewrite <- cum_gam by assumption. eapply cum_pos; eauto using gam_pos. now apply (r_lt n time).
Qed.

Lemma llk_spec coef : haz_llk n p X delta r ut coef = Some (partial_loglik n p X delta time coef).
Proof.
  unfold haz_llk. rewrite gam_eq, (llk2_eq n delta time r ut T _ (gam_pos coef)). f_equal.
  rewrite nsum_sumf. unfold partial_loglik.
  match goal with |- ?a + - sumf n ?F = _ => transitivity (a + -1 * sumf n F); [ring|] end.
  rewrite <- sumf_scal, <- sumf_plus. apply sumf_ext. intros i Hi.
  rewrite haz_eta_lin, cum_gam by assumption. ring.
Qed.

Definition grad_spec (coef : nat -> R) (a : nat) : R :=
  sumf n (fun i => delta i * (X i a - risk1 coef (time i) a / risk n p X time coef (time i))).
Definition hess_spec (coef : nat -> R) (a b : nat) : R :=
  sumf n (fun i => delta i * (risk1 coef (time i) a * risk1 coef (time i) b / risk n p X time coef (time i) ^ 2
                              - risk2 coef (time i) a b / risk n p X time coef (time i))).

Lemma gradient_spec coef :
  haz_gradient n p X delta r ut coef = Some (map (grad_spec coef) (seq 0 p)).
Proof.
  unfold haz_gradient. rewrite gam_eq, (grad2_eq n X delta time r ut T _ (gam_pos coef)). f_equal.
  apply map_ext. intros a. unfold grad_spec. rewrite nsum_sumf.
  match goal with |- ?a + - sumf n ?F = _ => transitivity (a + -1 * sumf n F); [ring|] end.
  rewrite <- sumf_scal, <- sumf_plus. apply sumf_ext. intros i Hi.
  rewrite cum_gam by assumption. rewrite (cum_risk n time r ut T) by assumption. unfold risk1. ring.
Qed.

Lemma hessian_spec coef :
  haz_hessian n p X delta r ut coef = Some (map (fun a => map (hess_spec coef a) (seq 0 p)) (seq 0 p)).
Proof.
  unfold haz_hessian. rewrite gam_eq, (hess_eq n X delta time r ut T _ (gam_pos coef)). f_equal.
  apply map_ext. intros a. apply map_ext. intros b. unfold hess_spec. apply sumf_ext. intros i Hi.
  rewrite cum_gam by assumption. rewrite !(cum_risk n time r ut T) by assumption. reflexivity.
Qed.

(** ** Derivatives *)

Lemma lin_derive x coef a : (a < p)%nat -> is_derive (fun t => lin p x (upd coef a t)) (coef a) (x a).
Proof.
  intros Ha. unfold lin.
  apply (is_derive_ext (fun t => sumf p (fun c => x c * coef c) - x a * coef a + x a * t)).
  - intros t. replace (fun c => x c * upd coef a t c) with (upd (fun c => x c * coef c) a (x a * t)).
    + now rewrite sumf_upd.
    + apply functional_extensionality. intros c. unfold upd. destruct (Nat.eqb_spec c a) as [->|]; reflexivity.
  - auto_derive; [auto|]. ring.
Qed.

Lemma exp_lin_derive x coef a : (a < p)%nat ->
  is_derive (fun t => exp (lin p x (upd coef a t))) (coef a) (exp (lin p x coef) * x a).
Proof.
  intros Ha. pose proof (is_derive_comp exp (fun t => lin p x (upd coef a t)) (coef a) (exp (lin p x coef)) (x a)) as G.
  eapply is_derive_eq; [apply G|].
  - rewrite upd_id. apply is_derive_Reals. apply derivable_pt_lim_exp.
  - now apply lin_derive.
  - unfold scal. simpl. unfold mult. simpl. ring.
Qed.

Lemma ifsum_derive (f : nat -> (nat -> R) -> R) (f' : nat -> R) t coef a :
  (forall k, (k < n)%nat -> is_derive (fun s => f k (upd coef a s)) (coef a) (f' k)) ->
  is_derive (fun s => sumf n (fun k => if (t <=? time k)%Z then f k (upd coef a s) else 0)) (coef a)
            (sumf n (fun k => if (t <=? time k)%Z then f' k else 0)).
Proof.
  intros H. apply (is_derive_sumf n (fun k s => if (t <=? time k)%Z then f k (upd coef a s) else 0)).
  intros k Hk. destruct (t <=? time k)%Z; [now apply H|apply (is_derive_const 0)].
Qed.

Lemma risk_derive t coef a : (a < p)%nat ->
  is_derive (fun s => risk n p X time (upd coef a s) t) (coef a) (risk1 coef t a).
Proof.
  intros Ha. apply (ifsum_derive (fun k c => exp (lin p (X k) c))). intros k _. now apply exp_lin_derive.
Qed.

Lemma risk1_derive t coef a b : (b < p)%nat ->
  is_derive (fun s => risk1 (upd coef b s) t a) (coef b) (risk2 coef t a b).
Proof.
  intros Hb. apply (ifsum_derive (fun k c => gam c k * X k a)). intros k _.
  pose proof (is_derive_scal _ _ (X k a) _ (exp_lin_derive (X k) coef b Hb)) as G.
  apply (is_derive_ext (fun s => X k a * exp (lin p (X k) (upd coef b s)))); [intros s; unfold gam; req; ring|].
  eapply is_derive_eq; [exact G|]. unfold gam. ring.
Qed.

Lemma div_derive (f g : R -> R) (x a b : R) : is_derive f x a -> is_derive g x b -> g x <> 0 ->
  is_derive (fun s => f s / g s) x ((a * g x - f x * b) / g x ^ 2).
Proof. intros Hf Hgd Hx. eapply is_derive_eq; [exact (is_derive_div f g x a b Hf Hgd Hx)|]. reflexivity. Qed.

Lemma ln_derive (f : R -> R) (x a : R) : is_derive f x a -> 0 < f x -> is_derive (fun s => ln (f s)) x (a / f x).
Proof.
  intros Hf Hx. pose proof (is_derive_comp ln f x (/ f x) a) as G. eapply is_derive_eq; [apply G|].
  - apply is_derive_Reals. now apply derivable_pt_lim_ln.
  - exact Hf.
  - unfold scal. simpl. unfold mult. simpl. reflexivity.
Qed.

Lemma pl_derive coef a : (a < p)%nat -> partial (partial_loglik n p X delta time) a coef (grad_spec coef a).
Proof.
  intros Ha. unfold partial, partial_loglik, grad_spec.
  apply (is_derive_sumf n (fun i s => delta i * (lin p (X i) (upd coef a s) - ln (risk n p X time (upd coef a s) (time i))))).
  intros i Hi. apply (is_derive_scal (fun s => lin p (X i) (upd coef a s) - ln (risk n p X time (upd coef a s) (time i)))).
  eapply is_derive_eq.
  - apply (is_derive_minus (fun s => lin p (X i) (upd coef a s)) (fun s => ln (risk n p X time (upd coef a s) (time i)))).
    + now apply lin_derive.
    + apply (ln_derive (fun s => risk n p X time (upd coef a s) (time i))).
      * now apply risk_derive.
      * now apply risk_pos.
  - rewrite upd_id. reflexivity.
Qed.

Lemma grad_derive coef a b : (b < p)%nat ->
  is_derive (fun s => grad_spec (upd coef b s) a) (coef b) (hess_spec coef a b).
Proof.
  intros Hb. unfold grad_spec, hess_spec.
  apply (is_derive_sumf n (fun i s => delta i * (X i a - risk1 (upd coef b s) (time i) a / risk n p X time (upd coef b s) (time i)))).
  intros i Hi. pose proof (risk_pos coef i Hi) as HR.
  apply (is_derive_scal (fun s => X i a - risk1 (upd coef b s) (time i) a / risk n p X time (upd coef b s) (time i))).
  pose proof (div_derive (fun s => risk1 (upd coef b s) (time i) a) (fun s => risk n p X time (upd coef b s) (time i)) (coef b)
     _ _ (risk1_derive (time i) coef a b Hb) (risk_derive (time i) coef b Hb)) as DV. cbv beta in DV. rewrite upd_id in DV.
  specialize (DV ltac:(lra)).
  pose proof (is_derive_minus _ _ _ _ _ (is_derive_const (X i a) (coef b)) DV) as G.
  eapply is_derive_eq; [exact G|]. unfold minus, plus, opp, zero. simpl. field. lra.
Qed.

Lemma pl_second coef a b : (a < p)%nat -> (b < p)%nat ->
  second (partial_loglik n p X delta time) a b coef (hess_spec coef a b).
Proof.
  intros Ha Hb. unfold second. apply (is_derive_ext (fun s => grad_spec (upd coef b s) a)); [|now apply grad_derive].
  intros s. symmetry. apply is_derive_unique. now apply pl_derive.
Qed.

(** ** Tables of hazards *)

Definition breslow1 (coef : nat -> R) (t : Z) (c : nat) : R :=
  sumf n (fun i => if (time i <=? t)%Z then risk1 coef (time i) c * delta i / risk n p X time coef (time i) ^ 2 else 0).

Definition entry (coef : nat -> R) (t : Z) : R * R * (nat -> R) :=
  (breslow n p X delta time coef t, breslow_var n p X delta time coef t, breslow1 coef t).

Lemma from_subject (coef : nat -> R) j u (F : nat -> R) (F' : nat -> R) : nth_error ut j = Some u ->
  (forall i, (i < n)%nat -> F (r i) = F' i) ->
  from ut j (fun i => isum (ris n r i) delta * F i)
  = sumf n (fun i => if (time i <=? u)%Z then delta i * F' i else 0).
Proof.
  intros Hj HF. unfold from. rewrite by_subject_from by now apply (r_lt n time).
  apply sumf_ext. intros i Hi. pose proof (r_le_time n time r ut T i j u Hi Hj).
  destruct (Nat.leb_spec j (r i)), (Z.leb_spec (time i) u); try lia; [now rewrite HF|reflexivity].
Qed.

Lemma prepare_eq coef : (0 < length ut)%nat ->
  prepare n p X delta r ut coef = Some (map (entry coef) ut).
Proof.
  intros Hn. unfold prepare. rewrite gam_eq.
  destruct (prep_checks n X delta time r ut T _ (gam_pos coef) Hn) as [Hc Hne].
  destruct (prep_loop n X delta r ut (gam coef)) as [|e l] eqn:El; [contradiction|]. rewrite <- El in *. rewrite Hc. f_equal.
  rewrite prep_back_eq. apply list_ext. intros j.
  destruct (nth_error ut j) as [u|] eqn:Eu.
  - assert (Hj : (j < length ut)%nat) by (apply nth_error_Some; congruence).
    rewrite !nth_error_map, Eu, (nth_error_nth' _ 0%nat) by now rewrite seq_length.
    rewrite seq_nth by assumption. cbn [option_map Nat.add]. f_equal. unfold entry.
    apply f_equal2; [apply f_equal2|].
    + unfold breslow, Rdiv. rewrite (from_subject coef j u _ (fun i => / risk n p X time coef (time i)) Eu); [reflexivity|].
      intros i Hi. now rewrite cum_gam.
    + unfold breslow_var, Rdiv. rewrite (from_subject coef j u (fun i => / cum n r (S i) (gam coef) ^ 2)
        (fun i => / risk n p X time coef (time i) ^ 2) Eu); [reflexivity|].
      intros i Hi. now rewrite cum_gam.
    + apply functional_extensionality. intros c. unfold breslow1.
      rewrite <- (sumf_ext n (fun i => if (time i <=? u)%Z
         then delta i * (risk1 coef (time i) c * / risk n p X time coef (time i) ^ 2) else 0)).
      * rewrite <- (from_subject coef j u (fun i => cum n r (S i) (fun i => gam coef i * X i c) * / cum n r (S i) (gam coef) ^ 2) _ Eu).
        -- unfold from. apply sumf_ext. intros i _. destruct (j <=? i)%nat; [|reflexivity]. unfold Rdiv. ring.
        -- intros i Hi. rewrite cum_gam by assumption. rewrite (cum_risk n time r ut T) by assumption. reflexivity.
      * intros i _. destruct (time i <=? u)%Z; [|reflexivity]. unfold Rdiv. ring.
  - rewrite !nth_error_map, Eu. assert (Hj : (length ut <= j)%nat) by now apply nth_error_None.
    assert (E : nth_error (seq 0 (length ut)) j = None) by (apply nth_error_None; now rewrite seq_length).
    now rewrite E.
Qed.

Lemma zindex_nth j u : nth_error ut j = Some u -> zindex u ut = Some j.
Proof.
  pose proof (tab_dec _ _ _ _ T) as Hd. clear T.
  revert j Hd. induction ut as [|v l IH]; intros j Hd E; [destruct j; discriminate|]. simpl.
  destruct j as [|j].
  - injection E as ->. now rewrite Z.eqb_refl.
  - destruct (Z.eqb_spec v u) as [->|N].
    + pose proof (Hd 0%nat (S j) u u ltac:(lia) eq_refl E). lia.
    + rewrite (IH j); [reflexivity| |exact E].
      intros a b x y Hab Ha Hb. apply (Hd (S a) (S b) x y); [lia|assumption|assumption].
Qed.

Lemma surv_time_in u : In u ut -> surv_time ut u = Some u.
Proof.
  intros H. unfold surv_time. assert (E : existsb (fun v => (v =? u)%Z) ut = true).
  { apply existsb_exists. exists u. split; [assumption|apply Z.eqb_refl]. }
  now rewrite E.
Qed.

Lemma survival_at coef t x V : In t ut ->
  get_survival n p X delta r ut None coef t x V
  = (Some (survival n p X delta time coef t x,
       match V with
       | None => None
       | Some W => let v := fun c => - breslow n p X delta time coef t * x c + breslow1 coef t c in
                   Some (exp (lin p x coef) * survival n p X delta time coef t x *
                         sqrt (breslow_var n p X delta time coef t + nsum p (fun b => nsum p (fun c => v c * W c b) * v b)))
       end), Some (map (entry coef) ut)).
Proof.
  intros Ht. unfold get_survival, haz_table.
  assert (Hn : (0 < length ut)%nat) by (destruct ut; [contradiction|simpl; lia]).
  rewrite prepare_eq by assumption. rewrite surv_time_in by assumption.
  destruct (In_nth_error _ _ Ht) as [j Hj]. rewrite (zindex_nth j t Hj). rewrite nth_error_map, Hj.
  cbn [option_map entry]. unfold entry. rewrite nsum_sumf. fold (lin p x coef). reflexivity.
Qed.

Lemma breslow_derive coef t a : (a < p)%nat ->
  is_derive (fun s => breslow n p X delta time (upd coef a s) t) (coef a) (- breslow1 coef t a).
Proof.
  intros Ha. unfold breslow, breslow1.
  eapply is_derive_eq.
  - apply (is_derive_sumf n (fun i s => if (time i <=? t)%Z then delta i / risk n p X time (upd coef a s) (time i) else 0)
      (fun i => -1 * (if (time i <=? t)%Z then risk1 coef (time i) a * delta i / risk n p X time coef (time i) ^ 2 else 0))).
    intros i Hi. destruct (time i <=? t)%Z.
    + pose proof (risk_pos coef i Hi) as HR.
      pose proof (div_derive (fun _ => delta i) (fun s => risk n p X time (upd coef a s) (time i)) (coef a) 0 _
        (is_derive_const (delta i) (coef a)) (risk_derive (time i) coef a Ha)) as DV. cbv beta in DV. rewrite upd_id in DV.
      specialize (DV ltac:(lra)). eapply is_derive_eq; [exact DV|]. unfold Rdiv. ring.
    + eapply is_derive_eq; [apply (is_derive_const 0)|]. unfold zero. simpl. ring.
  - rewrite sumf_scal. ring.
Qed.

Lemma survival_derive coef t x a : (a < p)%nat ->
  partial (fun c => survival n p X delta time c t x) a coef
    (exp (lin p x coef) * survival n p X delta time coef t x
     * (- breslow n p X delta time coef t * x a + breslow1 coef t a)).
Proof.
  intros Ha. unfold partial, survival.
  pose proof (mult_derive (fun s => - breslow n p X delta time (upd coef a s) t) (fun s => exp (lin p x (upd coef a s))) (coef a)
     _ _ (is_derive_opp _ _ _ (breslow_derive coef t a Ha)) (exp_lin_derive x coef a Ha)) as D1.
  cbv beta in D1. rewrite upd_id in D1.
  assert (D2 : is_derive exp (- breslow n p X delta time (upd coef a (coef a)) t * exp (lin p x (upd coef a (coef a))))
    (exp (- breslow n p X delta time coef t * exp (lin p x coef))))
    by (rewrite upd_id; apply is_derive_Reals; apply derivable_pt_lim_exp).
  pose proof (is_derive_comp exp (fun s => - breslow n p X delta time (upd coef a s) t * exp (lin p x (upd coef a s))) (coef a)
    (exp (- breslow n p X delta time coef t * exp (lin p x coef))) _
    D2 D1) as G.
  eapply is_derive_eq; [exact G|].
  unfold scal, opp. simpl. unfold mult. simpl. ring.
Qed.

(** ** Residuals *)

Lemma survival_cached coef t x l : In t ut -> l = map (entry coef) ut ->
  get_survival n p X delta r ut (Some l) coef t x None
  = (Some (survival n p X delta time coef t x, None), Some l).
Proof.
  intros Ht ->. pose proof (survival_at coef t x None Ht) as E. unfold get_survival, haz_table in *.
  assert (Hn : (0 < length ut)%nat) by (destruct ut; [contradiction|simpl; lia]).
  rewrite prepare_eq in E by assumption. exact E.
Qed.

Definition martingale (coef : nat -> R) (i : nat) : R :=
  delta i - breslow n p X delta time coef (time i) * exp (lin p (X i) coef).

Lemma get_resid_eq coef : get_resid n p X delta r ut None coef = map (fun i => Some (martingale coef i)) (seq 0 n).
Proof.
  unfold get_resid.
  assert (L : forall k, (k <= n)%nat -> forall F, F = (fun (st : cache * list (option R)) i =>
         let '(o, res) := st in
         match nth_error ut (r i) with
         | None => (o, res ++ [None])
         | Some ti =>
             let '(S0, o') := get_survival n p X delta r ut o coef ti (X i) None in
             (o', res ++ [match S0 with Some (s, _) => Some (delta i + ln s) | None => None end])
         end) ->
    fold_left F (seq 0 k) (None, [])
    = (match k with O => None | _ => Some (map (entry coef) ut) end, map (fun i => Some (martingale coef i)) (seq 0 k))).
  { induction k as [|k IH]; intros Hk F EF; [reflexivity|].
    rewrite seq_S, fold_left_app, (IH ltac:(lia) F EF), map_app. cbn [fold_left Nat.add map]. rewrite EF. cbv beta iota.
    assert (Hin : In (time k) ut) by (apply nth_error_In with (r k); apply (tab_r _ _ _ _ T); lia).
    rewrite (tab_r _ _ _ _ T) by lia.
    destruct k as [|k]; [rewrite survival_at by assumption|rewrite (survival_cached coef _ _ _ Hin eq_refl)];
      do 5 f_equal; unfold survival, martingale; rewrite ln_exp; ring. }
  exact (f_equal snd (L n (le_n n) _ eq_refl)).
Qed.

Lemma martingale_sum coef : sumf n (martingale coef) = 0.
Proof.
  unfold martingale.
  rewrite (sumf_ext n _ (fun i => delta i + -1 * (breslow n p X delta time coef (time i) * exp (lin p (X i) coef)))) by (intros; ring).
  rewrite sumf_plus, sumf_scal.
  assert (E : sumf n (fun i => breslow n p X delta time coef (time i) * exp (lin p (X i) coef)) = sumf n delta); [|rewrite E; ring].
  unfold breslow.
  rewrite (sumf_ext n _ (fun i => sumf n (fun k => delta k / risk n p X time coef (time k) *
     (if (time k <=? time i)%Z then exp (lin p (X i) coef) else 0)))).
  - rewrite sumf_swap. apply sumf_ext. intros k Hk. rewrite sumf_scal. fold (risk n p X time coef (time k)).
    pose proof (risk_pos coef k Hk). field. lra.
  - intros i Hi. rewrite Rmult_comm, <- sumf_scal. apply sumf_ext. intros k Hk.
    destruct (time k <=? time i)%Z; ring.
Qed.
End Subjects.
