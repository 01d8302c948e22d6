(** The recursion over psi computes the derivative of the forward pass. *)

From Coq Require Import List Bool Arith Reals Lia Lra.
From Coquelicot Require Import Coquelicot.
From Verif Require Import Ext HsmmModel HsmmSpec HsmmProofs2 HgrModel HgrSpec.
Import ListNotations.
Local Open Scope R_scope.

Lemma dconst (c x : R) : is_derive (fun _ : R => c) x 0.
Proof. apply @is_derive_const. Qed.
Lemma dplus (f g : R -> R) (x a c : R) : is_derive f x a -> is_derive g x c -> is_derive (fun z => f z + g z) x (a + c).
Proof. intros. apply @is_derive_plus; assumption. Qed.
Lemma dmult (f g : R -> R) (x a c : R) : is_derive f x a -> is_derive g x c -> is_derive (fun z => f z * g z) x (a * g x + f x * c).
Proof. intros. apply @is_derive_mult; try assumption. intros; apply Rmult_comm. Qed.
Lemma deq (f : R -> R) (x a c : R) : is_derive f x a -> a = c -> is_derive f x c.
Proof. now intros H <-. Qed.
Lemma dext (f g : R -> R) (x a : R) : (forall z, f z = g z) -> is_derive f x a -> is_derive g x a.
Proof. intros E. now apply is_derive_ext. Qed.
Lemma dnsum n (f : R -> nat -> R) (f' : nat -> R) (x : R) : (forall i, (i < n)%nat -> is_derive (fun z => f z i) x (f' i)) ->
  is_derive (fun z => nsum n (f z)) x (nsum n f').
Proof.
  induction n as [|n IH]; intros H; [exact (dconst 0 x)|]. apply dext with (fun z => nsum n (f z) + f z n); [intros; symmetry; apply nsum_S|].
  rewrite nsum_S. apply dplus; [apply IH; intros; apply H; lia|apply H; lia].
Qed.
Lemma nsum_plus n f g : nsum n (fun i => f i + g i) = nsum n f + nsum n g.
Proof. induction n as [|n IH]; [cbn; lra|]. rewrite !nsum_S, IH. lra. Qed.
Lemma nsum_scal_l n f c : nsum n (fun i => c * f i) = c * nsum n f.
Proof. induction n as [|n IH]; [cbn; lra|]. rewrite !nsum_S, IH. lra. Qed.

(** ** Derivatives of the forward variables; [g] holds the derivatives of the entries of the tables *)
Definition dfirst (m g : tables R) (d j : nat) : R :=
  (pi g j * b m 0 0 j + pi m j * b g 0 0 j) * ds m d j 0 + pi m j * b m 0 0 j * ds g d j 0.
Definition draw (m g : tables R) (t : nat) (a da : nat -> nat -> R) (d j : nat) : R :=
  if in_range m t d then
    (if (d + 1 <=? D m - 2)%nat then da (d + 1)%nat j * bc m t d j + a (d + 1)%nat j * bc g t d j else 0)
    + (nsum (n_S m) (fun i => if (i =? j)%nat then 0 else da 0%nat i * T m i j (t - 1) + a 0%nat i * T g i j (t - 1))
         * (b_first m t j * ds m d (later m j) t)
       + inflow m t a j * (b_first g t j * ds m d (later m j) t + b_first m t j * ds g d (later m j) t))
  else 0.
Fixpoint dalpha (m g : tables R) (t : nat) : nat -> nat -> R :=
  match t with O => dfirst m g | S t' => draw m g t (alpha m t') (dalpha m g t') end.

Lemma alpha_S m t d j : in_range m (S t) d = true -> alpha m (S t) d j =
  (if (d + 1 <=? D m - 2)%nat then alpha m t (d + 1)%nat j * bc m (S t) d j else 0) +
  inflow m (S t) (alpha m t) j * (b_first m (S t) j * ds m d (later m j) (S t)).
Proof. intros H. cbn [alpha]. now rewrite raw_cell_eq. Qed.

Section Derive.
Variable m0 : tables R.
Variables (B Du Tr : R -> nat -> nat -> nat -> R) (Pi : R -> nat -> R).
Variables (Bg Dg Tg : nat -> nat -> nat -> R) (Pg : nat -> R).
Variable x0 : R.
Definition mx x := put m0 (B x) (Du x) (Tr x) (Pi x).
Definition gx := put m0 Bg Dg Tg Pg.
Hypothesis HB : forall t k j, is_derive (fun x => B x t k j) x0 (Bg t k j).
Hypothesis HD : forall d j t, is_derive (fun x => Du x d j t) x0 (Dg d j t).
Hypothesis HT : forall i j t, is_derive (fun x => Tr x i j t) x0 (Tg i j t).
Hypothesis HP : forall j, is_derive (fun x => Pi x j) x0 (Pg j).

Lemma bc_derive t d j : is_derive (fun x => bc (mx x) t d j) x0 (bc gx t d j).
Proof.
  unfold bc, b_cont. cbn. destruct (hmp m0); [|apply HB]. destruct (Nat.odd j); [|apply HB].
  destruct (_ <=? _)%nat; [apply HB|apply dconst].
Qed.
Lemma b_first_derive t j : is_derive (fun x => b_first (mx x) t j) x0 (b_first gx t j).
Proof. unfold b_first. cbn. destruct (hmp m0); [|apply HB]. destruct (Nat.even j); apply HB. Qed.

Lemma alpha_derive t : forall d j, is_derive (fun x => alpha (mx x) t d j) x0 (dalpha (mx x0) gx t d j).
Proof.
  induction t as [|t IH]; intros d j.
  - cbn [alpha dalpha]. unfold first_cell, dfirst, ds. cbn. apply dmult with (f := fun x => Pi x j * B x 0%nat 0%nat j) (g := fun x => Du x d j _); [|apply HD].
    apply dmult with (f := fun x => Pi x j) (g := fun x => B x 0%nat 0%nat j); auto.
  - cbn [dalpha]. unfold draw. change (in_range (mx x0) (S t) d) with (in_range m0 (S t) d).
    destruct (in_range m0 (S t) d) eqn:R.
    + apply dext with (fun x => (if (d + 1 <=? D m0 - 2)%nat then alpha (mx x) t (d + 1)%nat j * bc (mx x) (S t) d j else 0) +
        inflow (mx x) (S t) (alpha (mx x) t) j * (b_first (mx x) (S t) j * ds (mx x) d (later m0 j) (S t))).
      { intros x. symmetry. exact (alpha_S (mx x) t d j R). }
      apply dplus.
      * change (D (mx x0)) with (D m0). destruct (_ <=? _)%nat; [|apply dconst].
        apply dmult with (f := fun x => alpha (mx x) t (d + 1)%nat j) (g := fun x => bc (mx x) (S t) d j); [apply IH|apply bc_derive].
      * apply dmult with (f := fun x => inflow (mx x) (S t) (alpha (mx x) t) j) (g := fun x => b_first (mx x) (S t) j * ds (mx x) d (later m0 j) (S t)).
        -- refine (dnsum (n_S m0) (fun x i => if (i =? j)%nat then 0 else alpha (mx x) t 0%nat i * T (mx x) i j (S t - 1))
             (fun i => if (i =? j)%nat then 0 else dalpha (mx x0) gx t 0%nat i * T (mx x0) i j (S t - 1) + alpha (mx x0) t 0%nat i * T gx i j (S t - 1)) x0 _).
           intros i Hi. destruct (i =? j)%nat; [apply dconst|].
           apply dmult with (f := fun x => alpha (mx x) t 0%nat i) (g := fun x => T (mx x) i j (S t - 1)); [apply IH|apply HT].
        -- apply dmult with (f := fun x => b_first (mx x) (S t) j) (g := fun x => ds (mx x) d (later m0 j) (S t)); [apply b_first_derive|apply HD].
    + apply dext with (fun _ => 0); [|apply dconst]. intros x. cbn [alpha]. unfold raw_cell. change (in_range (mx x) (S t) d) with (in_range m0 (S t) d). now rewrite R.
Qed.

Definition dtotal (m g : tables R) : R := sum_counted m (n_T m - 1) (dalpha m g (n_T m - 1)).
Lemma total_derive : is_derive (fun x => sum_counted (mx x) (n_T m0 - 1) (alpha (mx x) (n_T m0 - 1))) x0 (dtotal (mx x0) gx).
Proof.
  unfold sum_counted, dj_sum, dtotal.
  refine (dnsum (D m0 - 1) (fun x d => nsum (n_S m0) (fun j => if counts m0 (n_T m0 - 1) d j then alpha (mx x) (n_T m0 - 1) d j else 0))
    (fun d => nsum (n_S m0) (fun j => if counts m0 (n_T m0 - 1) d j then dalpha (mx x0) gx (n_T m0 - 1) d j else 0)) x0 _). intros d Hd.
  refine (dnsum (n_S m0) (fun x j => if counts m0 (n_T m0 - 1) d j then alpha (mx x) (n_T m0 - 1) d j else 0)
    (fun j => if counts m0 (n_T m0 - 1) d j then dalpha (mx x0) gx (n_T m0 - 1) d j else 0) x0 _). intros j Hj.
  destruct (counts m0 (n_T m0 - 1) d j); [apply alpha_derive|apply dconst].
Qed.

(** The log-likelihood of the series. *)
Hypothesis Hn : (0 < n_T m0)%nat.
Hypothesis Hb : forall x, fixed_bumps 0 (mx x).
Hypothesis Hpos : forall x, nonnegative (mx x).
Hypothesis Hfin : exists r, llk (mx x0) = Fin r.

Lemma total_positive : 0 < total_weight (mx x0).
Proof.
  destruct Hfin as [r E]. destruct (llk_value (mx x0) (Hb x0) (Hpos x0) Hn) as [[H _]|[_ [H|H]]]; [exact H|congruence|congruence].
Qed.
Lemma llk_slope : slope (fun x => llk (mx x)) x0 (dtotal (mx x0) gx / total_weight (mx x0)).
Proof.
  pose proof total_positive as P. pose proof total_derive as TD.
  assert (E : forall x, sum_counted (mx x) (n_T m0 - 1) (alpha (mx x) (n_T m0 - 1)) = total_weight (mx x)).
  { intros x. apply (total_alpha (mx x) (Hb x)). exact Hn. }
  apply (dext _ _ _ _ E) in TD.
  assert (L : locally x0 (fun x => 0 < total_weight (mx x))).
  { apply (ex_derive_continuous (fun x => total_weight (mx x)) x0); [eexists; exact TD|]. now apply open_gt. }
  assert (F : forall x, 0 < total_weight (mx x) -> llk (mx x) = Fin (ln (total_weight (mx x)))).
  { intros x Hx. destruct (llk_value (mx x) (Hb x) (Hpos x) Hn) as [[_ H]|[H _]]; [exact H|lra]. }
  split.
  - apply filter_imp with (2 := L). intros x Hx. eexists. now apply F.
  - apply is_derive_ext_loc with (fun x => ln (total_weight (mx x))).
    + apply filter_imp with (2 := L). intros x Hx. now rewrite F.
    + pose proof (is_derive_comp ln (fun x => total_weight (mx x)) x0 _ _ (is_derive_ln _ P) TD) as H.
      apply deq with (1 := H). unfold scal. cbn. unfold mult. cbn. unfold Rdiv. ring.
Qed.
End Derive.
