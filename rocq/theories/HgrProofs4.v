(** Derivatives of the entries of the tables. *)

From Coq Require Import List Bool Arith Reals Lia Lra.
From Coquelicot Require Import Coquelicot.
From Verif Require Import Ext HsmmModel HsmmSpec HsmmProofs2 HsmmProofs3 GlsModel HgrModel HgrSpec HgrProofs HgrProofs2 HgrProofs3.
Import ListNotations.
Local Open Scope R_scope.

Lemma dexp (f : R -> R) (x a : R) : is_derive f x a -> is_derive (fun z => exp (f z)) x (exp (f x) * a).
Proof.
  intros H. pose proof (is_derive_comp exp f x _ _ (is_derive_exp (f x)) H) as G. cbn in G.
  eapply deq; [exact G|]. unfold scal. cbn. unfold mult. cbn. ring.
Qed.
Lemma ddiv (f g : R -> R) (x a c : R) : g x <> 0 -> is_derive f x a -> is_derive g x c ->
  is_derive (fun z => f z / g z) x ((a * g x - f x * c) / g x ^ 2).
Proof. intros N Hf Hg. pose proof (is_derive_div f g x a c Hf Hg N) as G. eapply deq; [exact G|]. unfold minus, plus, opp, scal, mult. cbn. unfold mult. cbn. field. exact N. Qed.
Lemma dsame (f : R -> R) (x0 : R) : (forall x, f x = f x0) -> is_derive f x0 0.
Proof. intros H. apply (dext (fun _ => f x0)); [intros z; symmetry; apply H|apply dconst]. Qed.
Lemma exps_pos n (f : nat -> R) : (0 < n)%nat -> 0 < nsum n (fun e => exp (f e)).
Proof.
  destruct n; [lia|]. intros _. rewrite nsum_S. pose proof (exp_pos (f n)).
  assert (0 <= nsum n (fun e => exp (f e))) by (apply nsum_nonneg; intros; apply Rlt_le, exp_pos). lra.
Qed.

(** Normalised durations. *)
Lemma normalised_derive n (l : R -> nat -> R) (g : nat -> R) (x0 : R) d : (2 <= n)%nat -> (forall e, is_derive (fun x => l x e) x0 (g e)) ->
  is_derive (fun x => exp (l x d) / nsum (n - 1) (fun e => exp (l x e))) x0 (d_grad n (l x0) g d).
Proof.
  intros Hn H. pose proof (exps_pos (n - 1) (l x0) ltac:(lia)) as P. eapply deq.
  - apply (ddiv (fun x => exp (l x d)) (fun x => nsum (n - 1) (fun e => exp (l x e)))); [lra|apply dexp, H|].
    refine (dnsum (n - 1) (fun x e => exp (l x e)) (fun e => exp (l x0 e) * g e) x0 _). intros e _. apply dexp, H.
  - unfold d_grad. cbv zeta. reflexivity.
Qed.

(** Multinomial probabilities. *)
Lemma cat_derive n par (eta : R -> nat -> R) (X x0 : R) k : (par < n)%nat -> is_derive (fun x => eta x par) x0 X ->
  (forall i x, i <> par -> eta x i = eta x0 i) ->
  is_derive (fun x => match k with O => 1 | S p => exp (eta x p) end / (1 + nsum n (fun p => exp (eta x p)))) x0
    (match k with O => 1 | S p => exp (eta x0 p) end / (1 + nsum n (fun p => exp (eta x0 p)))
     * cat_grad (map (fun i => exp (eta x0 i)) (seq 0 n)) par X k).
Proof.
  intros Hp HX Hc. pose proof (exps_pos n (eta x0) ltac:(lia)) as P. set (N := nsum n (fun e => exp (eta x0 e))) in *.
  assert (HE : forall i, is_derive (fun x => exp (eta x i)) x0 (if (i =? par)%nat then exp (eta x0 par) * X else 0)).
  { intros i. destruct (Nat.eqb_spec i par) as [->|]; [now apply dexp|]. apply dsame. intros x. now rewrite Hc. }
  assert (HN : is_derive (fun x => 1 + nsum n (fun p => exp (eta x p))) x0 (exp (eta x0 par) * X)).
  { eapply deq; [apply dplus; [apply dconst|]|].
    - refine (dnsum n (fun x e => exp (eta x e)) (fun e => if (e =? par)%nat then exp (eta x0 par) * X else 0) x0 _). intros; apply HE.
    - rewrite (nsum_single n _ par Hp); [rewrite Nat.eqb_refl; ring|]. intros i _ Ni. destruct (Nat.eqb_spec i par); [contradiction|reflexivity]. }
  assert (HK : is_derive (fun x => match k with O => 1 | S p => exp (eta x p) end) x0
                 (match k with O => 0 | S p => if (p =? par)%nat then exp (eta x0 par) * X else 0 end)).
  { destruct k; [apply dconst|apply HE]. }
  assert (NZ : 1 + nsum n (fun p => exp (eta x0 p)) <> 0) by (fold N; lra).
  eapply deq; [apply (ddiv _ _ x0 _ _ NZ HK HN)|]. fold N.
  unfold cat_grad, mulnom_d1. rewrite map_length, seq_length. destruct (Nat.ltb_spec par n); [|lia].
  change (total (map (fun i => exp (eta x0 i)) (seq 0 n))) with N.
  rewrite (nth_indep _ 0 ((fun i => exp (eta x0 i)) 0%nat)) by now rewrite map_length, seq_length. rewrite (map_nth (fun i => exp (eta x0 i))), seq_nth by lia.
  rewrite Nat.add_0_l, Nat.add_1_r. destruct k as [|p]; cbn [Nat.eqb].
  - field. lra.
  - destruct (Nat.eqb_spec p par) as [->|]; field; lra.
Qed.

(** Sums over a list of pairs. *)
Lemma lsum_nsum_swap {A} (l : list A) n (f : A -> nat -> R) : lsum l (fun a => nsum n (f a)) = nsum n (fun s => lsum l (fun a => f a s)).
Proof.
  induction l as [|a l IH].
  - rewrite lsum_nil. symmetry. apply nsum_zero. reflexivity.
  - rewrite lsum_cons, IH, <- HgrProofs.nsum_plus. apply nsum_ext. intros. now rewrite lsum_cons.
Qed.
Definition pair_dec (a c : nat * nat) : {a = c} + {a <> c}.
Proof. decide equality; apply Nat.eq_dec. Defined.
Lemma lsum_one (l : list (nat * nat)) a (v : R) : NoDup l -> In a l -> lsum l (fun c => if pair_dec c a then v else 0) = v.
Proof.
  induction 1 as [|c l N ND IH]; [contradiction|]. intros [->|I]; rewrite lsum_cons.
  - destruct (pair_dec a a); [|contradiction]. rewrite lsum_zero; [ring|]. intros c Hc. destruct (pair_dec c a) as [->|]; [contradiction|reflexivity].
  - rewrite IH by exact I. destruct (pair_dec c a) as [->|]; [contradiction|ring].
Qed.
Lemma lsum_keyed (l : list (nat * nat)) n j (f : nat -> nat -> R) : NoDup l -> (forall a, In a l -> (snd a < n)%nat) ->
  (forall s, ~ In (j, s) l -> f j s = 0) -> lsum l (fun a => if (j =? fst a)%nat then f (fst a) (snd a) else 0) = nsum n (f j).
Proof.
  intros ND Hn Hz.
  rewrite (nsum_ext n _ (fun s => lsum l (fun a => if pair_dec a (j, s) then f j s else 0))).
  - rewrite <- lsum_nsum_swap. apply lsum_ext. intros [i s] Ha. cbn [fst snd]. specialize (Hn _ Ha). cbn in Hn. destruct (Nat.eqb_spec j i) as [<-|N].
    + rewrite (nsum_single n _ s Hn).
      * destruct (pair_dec (j, s) (j, s)); [reflexivity|contradiction].
      * intros u _ Nu. destruct (pair_dec (j, s) (j, u)) as [E|]; [injection E; congruence|reflexivity].
    + symmetry. apply nsum_zero. intros u _. destruct (pair_dec (i, s) (j, u)) as [E|]; [injection E; congruence|reflexivity].
  - intros s _. destruct (in_dec pair_dec (j, s) l) as [I|I].
    + now rewrite lsum_one.
    + rewrite (Hz s I). symmetry. apply lsum_zero. intros a _. now destruct (pair_dec a (j, s)).
Qed.
Lemma shared_lsum {A} (l : list A) (f : A -> R) : shared_sum (map f l) = lsum l f.
Proof. unfold shared_sum. rewrite fold_symmetric; [reflexivity|intros; ring|intros; ring]. Qed.

(** hmp models. *)
Lemma ld_derive h yv (p : R -> R) (x0 g : R) : 0 < scale h -> is_derive p x0 g -> is_derive (fun x => ld h yv (p x)) x0 (score h yv (p x0) g).
Proof.
  intros Hs Hp. unfold ld, score.
  assert (Q : is_derive (fun x => (yv - p x) ^ 2) x0 (- (2 * (yv - p x0) * g))).
  { apply (dext (fun x => (yv + - 1 * p x) * (yv + - 1 * p x))); [intros; ring|].
    assert (L : is_derive (fun x => yv + - 1 * p x) x0 (- g)).
    { eapply deq; [apply dplus; [apply dconst|apply dmult; [apply dconst|exact Hp]]|]. cbv beta. ring. }
    eapply deq; [apply dmult; exact L|]. cbv beta. ring. }
  destruct (exponential h).
  - apply (dext (fun x => - / scale h * (yv - p x) ^ 2 + - ln (scale h))); [intros; field; lra|].
    eapply deq; [apply dplus; [apply dmult; [apply dconst|exact Q]|apply dconst]|]. cbv beta. field. lra.
  - pose proof (sqrt_lt_R0 _ Hs) as Hr. pose proof (sqrt_sqrt (scale h) (Rlt_le _ _ Hs)) as Hq.
    apply (dext (fun x => - / (2 * scale h) * (yv - p x) ^ 2 + (- ln (sqrt (2 * PI)) - ln (sqrt (scale h))))).
    + intros x. rewrite <- Hq at 1. field. lra.
    + eapply deq; [apply dplus; [apply dmult; [apply dconst|exact Q]|apply dconst]|]. cbv beta. field. lra.
Qed.
Lemma lagged_derive (mu : R -> nat -> R) (bg : nat -> R) (x0 : R) t : (forall t, is_derive (fun x => mu x t) x0 (bg t)) ->
  is_derive (fun x => lagged (mu x) t) x0 (lagged bg t).
Proof. intros H. destruct t; cbn [lagged]; [apply dconst|apply H]. Qed.
Lemma scal_derive (c : R) (f : R -> R) (x0 a : R) : is_derive f x0 a -> is_derive (fun x => c * f x) x0 (c * a).
Proof. intros H. eapply deq; [apply dmult; [apply dconst|exact H]|]. cbv beta. ring. Qed.
Lemma ebump_derive h (mu : R -> nat -> R) (bg : nat -> R) (x0 : R) t k : (forall t, is_derive (fun x => mu x t) x0 (bg t)) ->
  is_derive (fun x => ebump h (mu x) t k) x0 (ebump h bg t k).
Proof.
  intros H. unfold ebump. destruct (rho h) as [r|]; [|apply scal_derive, H]. destruct k; [apply scal_derive, scal_derive, H|].
  apply dplus; [apply scal_derive, scal_derive, H|]. apply scal_derive, scal_derive. now apply lagged_derive.
Qed.
(** Derivatives of the table of an hmp model; [bg t s j] is that of the mean. *)
Definition hmp_dsum (h : hmp_pars) (ew : nat) (mu bg : nat -> nat -> nat -> R) (t k j : nat) : R :=
  if Nat.odd j then nsum (M h) (fun s => score h (y h t s) (ebump h (fun t => mu t s j) t k) (ebump h (fun t => bg t s j) t k))
  else match k, rho h with
       | S O, Some r => if (0 <? j)%nat then nsum (M h) (fun s => score h (y h t s) (d1 r * (w h (ew - 1) * lagged (fun t => mu t s (j - 1)%nat) t))
                                                                   (d1 r * (w h (ew - 1) * lagged (fun t => bg t s (j - 1)%nat) t)))
                        else 0
       | _, _ => 0
       end.
Lemma hmp_b_derive h ew (mu : R -> nat -> nat -> nat -> R) (bg : nat -> nat -> nat -> R) (x0 : R) t k j : 0 < scale h ->
  (forall t s j, is_derive (fun x => mu x t s j) x0 (bg t s j)) ->
  is_derive (fun x => hmp_b h ew (mu x) t k j) x0 (hmp_b h ew (mu x0) t k j * hmp_dsum h ew (mu x0) bg t k j).
Proof.
  intros Hs H. unfold hmp_b, hmp_dsum. destruct (Nat.odd j).
  - apply dexp. refine (dnsum (M h) (fun x s => ld h (y h t s) (ebump h (fun t => mu x t s j) t k)) _ x0 _). intros s _.
    apply (ld_derive h (y h t s) (fun x => ebump h (fun t => mu x t s j) t k)); [exact Hs|]. apply (ebump_derive h (fun x t => mu x t s j) (fun t => bg t s j)). intros; apply H.
  - destruct k as [|[|k]]; [eapply deq; [apply dconst|ring]| |eapply deq; [apply dconst|ring]].
    destruct (rho h) as [r|]; [|eapply deq; [apply dconst|ring]]. destruct (0 <? j)%nat; [|eapply deq; [apply dconst|ring]].
    apply dexp. refine (dnsum (M h) (fun x s => ld h (y h t s) (d1 r * (w h (ew - 1) * lagged (fun t => mu x t s (j - 1)%nat) t))) _ x0 _). intros s _.
    apply (ld_derive h (y h t s) (fun x => d1 r * (w h (ew - 1) * lagged (fun t => mu x t s (j - 1)%nat) t))); [exact Hs|].
    apply scal_derive, scal_derive. apply (lagged_derive (fun x t => mu x t s (j - 1)%nat) (fun t => bg t s (j - 1)%nat)). intros; apply H.
Qed.
Lemma score_zero h yv e : score h yv e 0 = 0. Proof. unfold score. ring. Qed.
Lemma ebump_zero h t k : ebump h (fun _ => 0) t k = 0.
Proof. unfold ebump. destruct (rho h); [|ring]. destruct k; [ring|]. destruct t; cbn [lagged]; ring. Qed.
Lemma ebump_ext h u v t k : (forall t, u t = v t) -> ebump h u t k = ebump h v t k.
Proof. intros H. unfold ebump. destruct (rho h); [|now rewrite H]. destruct k; [now rewrite H|]. rewrite H. destruct t; cbn [lagged]; now rewrite ?H. Qed.
Lemma lagged_ext u v t : (forall t, u t = v t) -> lagged u t = lagged v t.
Proof. intros H. destruct t; cbn [lagged]; auto. Qed.
Lemma hmp_nonneg h ew mu t k j : 0 <= hmp_b h ew mu t k j.
Proof.
  unfold hmp_b. destruct (Nat.odd j); [apply Rlt_le, exp_pos|]. destruct k as [|[|k]]; [apply Rlt_le, exp_pos| |lra].
  destruct (rho h); [destruct (0 <? j)%nat|]; apply Rlt_le, exp_pos.
Qed.

(** Sum of the tangents of the columns of one coefficient. *)
Lemma hmp_tangents m h (mu bg : nat -> nat -> nat -> R) (L : list (nat * nat)) t k j :
  NoDup L -> (forall a, In a L -> Nat.odd (fst a) = true /\ (snd a < M h)%nat) -> (forall t j s, ~ In (j, s) L -> bg t s j = 0) ->
  b m t k j = hmp_b h (event_width m) mu t k j ->
  lsum L (fun a => b (hmp_tangent m h (snd a) (fun t => mu t (snd a) (fst a)) (fun t => bg t (snd a) (fst a)) (fst a)) t k j)
  = hmp_b h (event_width m) mu t k j * hmp_dsum h (event_width m) mu bg t k j.
Proof.
  intros ND HL Hz Hb. cbn [b hmp_tangent put]. rewrite Hb. set (B := hmp_b h (event_width m) mu t k j). unfold hmp_dsum. destruct (Nat.odd j) eqn:Oj.
  - rewrite <- HgrProofs.nsum_scal_l.
    rewrite <- (lsum_keyed L (M h) j (fun j s => B * score h (y h t s) (ebump h (fun t => mu t s j) t k) (ebump h (fun t => bg t s j) t k))); auto; cycle 1.
    + intros a Ha. now apply HL.
    + intros s I. rewrite (ebump_ext h (fun t => bg t s j) (fun _ => 0)) by (intros; now apply Hz). rewrite ebump_zero, score_zero. ring.
    + apply lsum_ext. intros [i s] Ha. cbn [fst snd]. destruct (HL _ Ha) as [O _]. cbn in O. destruct (Nat.eqb_spec j i); [now subst|].
      destruct (Nat.eqb_spec j (S i)) as [->|]; [|reflexivity]. rewrite Nat.odd_succ, <- Nat.negb_odd, O in Oj. discriminate.
  - assert (E : forall a, In a L -> (j =? fst a)%nat = false).
    { intros a Ha. destruct (HL _ Ha) as [O _]. destruct (Nat.eqb_spec j (fst a)); [congruence|reflexivity]. }
    destruct k as [|[|k]].
    + rewrite lsum_zero; [ring|]. intros a Ha. rewrite (E a Ha). change (0 =? 1)%nat with false. now rewrite andb_false_r.
    + change (1 =? 1)%nat with true. destruct (rho h) as [r|].
      * destruct j as [|j].
        { cbn [Nat.ltb Nat.leb]. rewrite lsum_zero; [ring|]. intros a Ha. now rewrite (E a Ha). }
        cbn [Nat.ltb Nat.leb]. replace (S j - 1)%nat with j by lia. rewrite <- HgrProofs.nsum_scal_l.
        rewrite <- (lsum_keyed L (M h) j (fun j s => B * score h (y h t s) (d1 r * (w h (event_width m - 1) * lagged (fun t => mu t s j) t))
                                                     (d1 r * (w h (event_width m - 1) * lagged (fun t => bg t s j) t)))); auto; cycle 1.
        -- intros a Ha. now apply HL.
        -- intros s I. rewrite (lagged_ext (fun t => bg t s j) (fun _ => 0)) by (intros; now apply Hz).
           replace (d1 r * (w h (event_width m - 1) * lagged (fun _ => 0) t)) with 0 by (destruct t; cbn [lagged]; ring). rewrite score_zero. ring.
        -- apply lsum_ext. intros a Ha. rewrite (E a Ha). cbn [Nat.eqb]. rewrite andb_true_r. reflexivity.
      * rewrite lsum_zero; [ring|]. intros a Ha. rewrite (E a Ha). now destruct (_ && _).
    + rewrite lsum_zero; [ring|]. intros a Ha. rewrite (E a Ha). change (S (S k) =? 1)%nat with false. now rewrite andb_false_r.
Qed.

(** For examples. *)
Lemma slope_unique f (x0 a c : R) : slope f x0 a -> slope f x0 c -> a = c.
Proof. intros [_ H1] [_ H2]. apply is_derive_unique in H1. apply is_derive_unique in H2. congruence. Qed.
Lemma finite_total (m : tables R) (v : R) : usable m -> sum_counted m (n_T m - 1) (alpha m (n_T m - 1)) = v -> 0 < v -> exists r, llk m = Fin r.
Proof.
  intros (Hn & _ & _ & Hp & Hf) H P. destruct (llk_value m Hf Hp Hn) as [[_ E]|[Z _]]; [eexists; exact E|].
  rewrite <- (total_alpha m Hf) in Z by exact Hn. lra.
Qed.
Lemma did (x : R) : is_derive (fun z : R => z) x 1.
Proof. apply (is_derive_id x). Qed.
