(** Existence of trajectories, the recorded values, the tuning of the step size. *)

From Coq Require Import List ZArith Reals Bool Lra Lia FunctionalExtensionality.
From Verif Require Import NutsModel NutsSpec NutsProofs NutsProofs2 NutsProofs3 NutsProofs4.
Import ListNotations.
Local Open Scope R_scope.

Lemma last_cons {A} (a : A) l d : last (a :: l) d = last l a.
Proof. revert a d; induction l as [|b l IH]; intros a d; [reflexivity|]. change (last (b :: l) d = last (b :: l) a). now rewrite !IH. Qed.

Section Extend.
Variables (n : nat) (Minv : nat -> vec) (llk : vec -> R) (grad : vec -> vec).

(** One leapfrog step on a pair of state and momentum. *)
Definition hop (eps : R) (z : vec * vec) : vec * vec :=
  match leap_frog n Minv llk grad (fst z) (grad (fst z)) (snd z) eps with (x, _, r, _) => (x, r) end.

Lemma hop_leap eps z : leap_frog n Minv llk grad (fst z) (grad (fst z)) (snd z) eps
  = (fst (hop eps z), grad (fst (hop eps z)), snd (hop eps z), llk (fst (hop eps z))).
Proof. reflexivity. Qed.

Lemma hop_back eps z : hop eps (hop (- eps) z) = z.
Proof.
  pose proof (hop_leap (- eps) z) as H. apply leap_back in H. rewrite Ropp_involutive in H.
  unfold hop at 1. rewrite H. destruct z; reflexivity.
Qed.

Lemma path_exists eps x r : exists st mo, path n Minv llk grad eps st mo /\ st 0%Z = x /\ mo 0%Z = r.
Proof.
  set (z k := match k with Z0 => (x, r) | Zpos p => Nat.iter (Pos.to_nat p) (hop eps) (x, r)
                      | Zneg p => Nat.iter (Pos.to_nat p) (hop (- eps)) (x, r) end).
  exists (fun k => fst (z k)), (fun k => snd (z k)). split; [|split; reflexivity].
  assert (E : forall k, z (k + 1)%Z = hop eps (z k)).
  { intros [|p|p].
    - reflexivity.
    - cbn [Z.add z]. unfold z. rewrite Pos2Nat.inj_add, Nat.add_comm. reflexivity.
    - destruct (Pos.eq_dec p 1) as [-> |Hp].
      + cbn [Z.add Z.pos_sub z]. unfold z. change (Pos.to_nat 1) with 1%nat. cbn [Nat.iter nat_rect]. now rewrite hop_back.
      + replace (Z.neg p + 1)%Z with (Z.neg (Pos.pred p)) by lia.
        unfold z. replace (Pos.to_nat p) with (S (Pos.to_nat (Pos.pred p))) by lia.
        cbn [Nat.iter nat_rect]. now rewrite hop_back. }
  intros k. rewrite hop_leap, <- E. reflexivity.
Qed.

Lemma path_unique eps st mo st' mo' : path n Minv llk grad eps st mo -> path n Minv llk grad eps st' mo' ->
  st 0%Z = st' 0%Z -> mo 0%Z = mo' 0%Z -> forall k, st k = st' k /\ mo k = mo' k.
Proof.
  intros P P' E0 F0.
  assert (U : forall m : nat, st (Z.of_nat m) = st' (Z.of_nat m) /\ mo (Z.of_nat m) = mo' (Z.of_nat m)).
  { induction m as [|m [E F]]; [auto|]. specialize (P (Z.of_nat m)). specialize (P' (Z.of_nat m)).
    rewrite E, F, P' in P. replace (Z.of_nat (S m)) with (Z.of_nat m + 1)%Z by lia.
    now injection P as -> _ -> _. }
  assert (D : forall m : nat, st (- Z.of_nat m)%Z = st' (- Z.of_nat m)%Z /\ mo (- Z.of_nat m)%Z = mo' (- Z.of_nat m)%Z).
  { induction m as [|m [E F]]; [auto|].
    pose proof (path_back _ _ _ _ _ _ _ P (- Z.of_nat m)%Z) as Q. pose proof (path_back _ _ _ _ _ _ _ P' (- Z.of_nat m)%Z) as Q'.
    rewrite E, F, Q' in Q. replace (- Z.of_nat (S m))%Z with (- Z.of_nat m - 1)%Z by lia.
    now injection Q as -> _ -> _. }
  intros k. destruct (Z_le_dec 0 k).
  - replace k with (Z.of_nat (Z.to_nat k)) by lia. apply U.
  - replace k with (- Z.of_nat (Z.to_nat (- k)))%Z by lia. apply D.
Qed.

(** The value returned with a proposal is that of the proposal; the acceptance statistic is a mean. *)
Definition honest (j : nat) (t : tree) : Prop :=
  Lprime t = llk (stateprime t) /\ 0 <= aprime t <= INR (naprime t) /\ (1 <= naprime t <= 2 ^ j)%nat.

Lemma build_honest logu eps H0 v j : forall x r, always (honest j) (build_tree n Minv llk grad logu eps H0 x r v j).
Proof.
  induction j; intros x r.
  - cbn. unfold honest. cbn. split; [reflexivity|]. split; [|lia].
    destruct (Rlt_dec 0 _) as [L|L]; [lra|].
    split; [left; apply exp_pos|]. apply Rnot_lt_le in L. destruct L as [L|L].
    + apply exp_increasing in L. rewrite exp_0 in L. lra.
    + rewrite L, exp_0. lra.
  - rewrite build_tree_S, always_bind. generalize (IHj x r). apply always_impl. intros t1 (L1 & A1 & N1).
    destruct (sprime t1).
    + rewrite always_bind.
      assert (B : always (honest j) (if (v =? -1)%Z then build_tree n Minv llk grad logu eps H0 (statem t1) (rm t1) v j
                 else build_tree n Minv llk grad logu eps H0 (statep t1) (rp t1) v j)) by (destruct (v =? -1)%Z; apply IHj).
      revert B. apply always_impl. intros t2 (L2 & A2 & N2). unfold combine. cbv zeta. cbn [always].
      assert (X : forall take : bool, (if take then Lprime t2 else Lprime t1) = llk (if take then stateprime t2 else stateprime t1))
        by (intros [|]; assumption).
      unfold honest; cbn [stateprime Lprime aprime naprime]. rewrite plus_INR. cbn [Nat.pow].
      split; (split; [apply X|]); (split; [lra|lia]).
    + cbn [always]. unfold honest. cbn [Nat.pow]. split; [exact L1|]. split; [exact A1|lia].
Qed.

Definition sound (s : trajectory) : Prop :=
  cL s = llk (cstate s) /\
  match stat s with Some (a, na) => 0 <= a <= INR na /\ (1 <= na)%nat | None => True end.

Lemma doubling_sound logu eps H0 fuel : forall j s, sound s ->
  always (fun s' => sound s' /\ (0 < fuel -> stat s' <> None)%nat) (doubling n Minv llk grad logu eps H0 fuel j s).
Proof.
  induction fuel; intros j s H.
  - cbn. split; [exact H|lia].
  - rewrite doubling_S. cbn [always].
    assert (B : forall v, always (fun s' => sound s' /\ (0 < S fuel -> stat s' <> None)%nat) (body n Minv llk grad logu eps H0 fuel j s v)).
    { intros v. unfold body. cbv zeta. rewrite always_bind.
      assert (B : always (honest j) (if (v =? -1)%Z then build_tree n Minv llk grad logu eps H0 (tm s) (trm s) v j
                 else build_tree n Minv llk grad logu eps H0 (tp s) (trp s) v j)) by (destruct (v =? -1)%Z; apply build_honest).
      revert B. apply always_impl. intros t (L & A & N). rewrite always_bind.
      assert (C : always (fun c => snd c = llk (fst c)) (if sprime t
         then Below (INR (nprime t) / INR (tn s)) (fun hit => Ret (if hit then (stateprime t, Lprime t) else (cstate s, cL s)))
         else Ret (cstate s, cL s))).
      { destruct H as [H _]. destruct (sprime t); cbn [always fst snd]; auto. }
      revert C. apply always_impl. intros c Ec.
      match goal with |- context [if sprime t && ?c then doubling _ _ _ _ _ _ _ _ _ ?s' else _] => set (s1 := s'); set (go := sprime t && c) end.
      assert (S1 : sound s1).
      { split; [exact Ec|]. cbn. split; [exact A|lia]. }
      destruct go.
      - destruct fuel as [|fuel'].
        + cbn. split; [exact S1|]. intros _. cbn. discriminate.
        + generalize (IHfuel (S j) s1 S1). apply always_impl. intros s' [Q1 Q2]. split; [exact Q1|]. intros _. apply Q2. lia.
      - cbn [always]. split; [exact S1|]. intros _. cbn. discriminate. }
    split; apply B.
Qed.

Lemma nuts_step_sound max_j eps x r e : always (fun s => sound s /\ (0 < max_j -> stat s <> None)%nat)
  (nuts_step n Minv llk grad max_j eps x (llk x) r e).
Proof. apply doubling_sound. split; [reflexivity|exact I]. Qed.

Variables (Madapt max_j : nat) (mu delta kappa gamma t0 junk : R).
Notation adv := (advance_chain n Minv llk grad Madapt max_j mu delta kappa gamma t0 junk).

Lemma advance_sound draws : forall c, curL c = llk (cur c) ->
  always (fun out => length (fst out) = length draws /\
                     Forall (fun p => fst p = llk (snd p)) (fst out) /\
                     (curL (snd out), cur (snd out)) = last (fst out) (curL c, cur c) /\
                     curL (snd out) = llk (cur (snd out)) /\
                     m (snd out) = (m c + length draws)%nat) (adv draws c).
Proof.
  induction draws as [|[r0 e] draws IH]; intros c H; cbn [advance_chain always].
  - cbn. repeat split; auto; lia.
  - rewrite always_bind. rewrite H. generalize (nuts_step_sound max_j (eps c) (cur c) r0 e). apply always_impl.
    intros s [[Q _] _]. rewrite always_bind.
    set (c' := adapt Madapt mu delta kappa gamma t0 junk (stat s) (Chain (m c) (cL s) (cstate s) (eps c) (epsbar c) (Hbar c))).
    assert (C1 : curL c' = cL s) by (unfold c', adapt; cbn [m]; destruct (S (m c) <? Madapt)%nat; reflexivity).
    assert (C2 : cur c' = cstate s) by (unfold c', adapt; cbn [m]; destruct (S (m c) <? Madapt)%nat; reflexivity).
    assert (C3 : m c' = S (m c)) by (unfold c', adapt; cbn [m]; destruct (S (m c) <? Madapt)%nat; reflexivity).
    assert (C4 : curL c' = llk (cur c')) by (rewrite C1, C2; exact Q).
    generalize (IH c' C4). apply always_impl. intros [l cc] (E1 & E2 & E3 & E4 & E5). cbn [always fst snd length] in *.
    split; [now rewrite E1|]. split; [constructor; [exact Q|exact E2]|]. split; [|split; [exact E4|lia]].
    rewrite E3, C1, C2. symmetry. apply last_cons.
Qed.

Lemma mean_Ret_bind {A B} (x : rnd A) (h : A -> B) g : mean (bind x (fun a => Ret (h a))) g = mean x (fun a => g (h a)).
Proof. now rewrite mean_bind. Qed.

Lemma advance_app d1 d2 : forall c g,
  mean (adv (d1 ++ d2) c) g
  = mean (adv d1 c) (fun r1 => mean (adv d2 (snd r1)) (fun r2 => g (fst r1 ++ fst r2, snd r2))).
Proof.
  induction d1 as [|[r0 e] d1 IH]; intros c g.
  - cbn [app advance_chain mean fst snd]. apply mean_ext. intros [l cc]. reflexivity.
  - cbn [app advance_chain]. rewrite !mean_bind. apply mean_ext. intros s. rewrite !mean_bind, IH. cbn [mean fst snd].
    apply mean_ext. intros [l cc]. cbn [fst snd]. apply mean_ext. intros [l2 c2]. reflexivity.
Qed.

Lemma adapt_positive s c : 0 < eps c -> 0 < epsbar c ->
  let c' := adapt Madapt mu delta kappa gamma t0 junk s c in 0 < eps c' /\ 0 < epsbar c'.
Proof. intros. unfold c', adapt. cbv zeta. destruct (S (m c) <? Madapt)%nat; cbn; split; auto; apply exp_pos. Qed.

Lemma advance_positive draws : forall c, 0 < eps c -> 0 < epsbar c ->
  always (fun out => 0 < eps (snd out) /\ 0 < epsbar (snd out)) (adv draws c).
Proof.
  induction draws as [|[r0 e] draws IH]; intros c H1 H2; cbn [advance_chain always]; [auto|].
  rewrite always_bind. apply always_true. intros s. rewrite always_bind.
  set (c' := adapt Madapt mu delta kappa gamma t0 junk (stat s) (Chain (m c) (cL s) (cstate s) (eps c) (epsbar c) (Hbar c))).
  assert (P : 0 < eps c' /\ 0 < epsbar c').
  { apply (adapt_positive (stat s) (Chain (m c) (cL s) (cstate s) (eps c) (epsbar c) (Hbar c))); assumption. }
  generalize (IH c' (proj1 P) (proj2 P)). apply always_impl. intros [l cc] Q. exact Q.
Qed.

(** Once the tuning is over the step size stays. *)
Lemma advance_frozen draws : forall c, (Madapt <= m c + 1)%nat -> eps c = epsbar c ->
  always (fun out => eps (snd out) = eps c /\ epsbar (snd out) = epsbar c /\ Hbar (snd out) = Hbar c) (adv draws c).
Proof.
  induction draws as [|[r0 e] draws IH]; intros c H1 H2; cbn [advance_chain always]; [auto|].
  rewrite always_bind. apply always_true. intros s. rewrite always_bind.
  set (c' := adapt Madapt mu delta kappa gamma t0 junk (stat s) (Chain (m c) (cL s) (cstate s) (eps c) (epsbar c) (Hbar c))).
  assert (E : c' = Chain (S (m c)) (cL s) (cstate s) (epsbar c) (epsbar c) (Hbar c)).
  { unfold c', adapt. cbn [m]. destruct (Nat.ltb_spec (S (m c)) Madapt); [lia|reflexivity]. }
  assert (G : always (fun out => eps (snd out) = eps c' /\ epsbar (snd out) = epsbar c' /\ Hbar (snd out) = Hbar c') (adv draws c')).
  { apply IH; rewrite E; cbn; [lia|reflexivity]. }
  revert G. apply always_impl. intros [l cc]. rewrite E. cbn [always fst snd eps epsbar Hbar]. rewrite H2. auto.
Qed.

(** The search for a first step size. *)
Lemma search_up fuel x r L : forall e res,
  search n Minv llk grad fuel x r L 1 e = Some res ->
  0 < e -> 0 < res /\ log_ratio n Minv llk grad x r L res <= - ln 2 /\
  (res = e \/ - ln 2 < log_ratio n Minv llk grad x r L (res / 2)).
Proof.
  induction fuel; intros e res; cbn [search];
    replace (ln 2 * -1 * 1) with (- ln 2) by ring; rewrite (Rmult_1_r (log_ratio _ _ _ _ _ _ _ _));
    destruct (Rlt_dec _ _) as [H|H]; intros E P; try discriminate.
  - injection E as <-. lra.
  - replace (Rpower 2 1) with 2 in E by (symmetry; apply Rpower_1; lra).
    apply IHfuel in E; [|lra]. destruct E as (P' & Q & D). split; [exact P'|]. split; [exact Q|]. right.
    destruct D as [-> |D]; [|exact D]. replace (e * 2 / 2) with e by field. exact H.
  - injection E as <-. lra.
Qed.

Lemma search_down fuel x r L : forall e res,
  search n Minv llk grad fuel x r L (-1) e = Some res ->
  0 < e -> 0 < res /\ - ln 2 <= log_ratio n Minv llk grad x r L res /\
  (res = e \/ log_ratio n Minv llk grad x r L (2 * res) < - ln 2).
Proof.
  induction fuel; intros e res; cbn [search];
    replace (ln 2 * -1 * -1) with (ln 2) by ring;
    destruct (Rlt_dec _ _) as [H|H]; intros E P; try discriminate.
  - injection E as <-. split; [exact P|]. split; [lra|now left].
  - assert (R2 : Rpower 2 (-1) = / 2).
    { replace (-1) with (- (1)) by ring. rewrite Rpower_Ropp, Rpower_1; lra. }
    rewrite R2 in E.
    apply IHfuel in E; [|lra]. destruct E as (P' & Q & D). split; [exact P'|]. split; [exact Q|]. right.
    destruct D as [-> |D]; [|exact D]. replace (2 * (e * / 2)) with e by field. lra.
  - injection E as <-. split; [exact P|]. split; [lra|now left].
Qed.

End Extend.
