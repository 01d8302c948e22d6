(** Drawing update vectors again, effective degrees of freedom of general models, the start of GAMM.fit (C171-C173). *)
From Coq Require Import List ZArith Bool Lia.
From Verif Require Import HsampModel HsampSpec HsampProofs.
Import ListNotations.

(** C171: draws use consecutive seeds until there are enough vectors; the last draw counts. *)
Theorem C171_draws : forall V B R sub exact cross dot inv draw blk edf (st : store V B R) fcols given pens psd n min seed, (0 <= min)%Z ->
  exists st' updates total terms k,
    sampleHcoef V B R sub exact cross dot inv draw blk edf st fcols given pens psd n min (Some seed) = Ret (st', updates, total, terms) /\
    first_good (fun z => Z.of_nat (length (draw z))) min seed k /\
    updates = Z.of_nat (length (draw (seed + Z.of_nat (k - 1))%Z)) /\
    (updates = 0%Z -> st' = st) /\
    ((0 < updates)%Z -> length (st_vecs st') = length (draw (seed + Z.of_nat (k - 1))%Z) /\ st_sampled st' = true).
Proof.
  intros V B R sub exact cross dot inv draw blk edf st fcols given pens psd n min seed M.
  destruct (attempts_thirty V R draw min seed M) as (k & G & A). unfold number in *.
  unfold sampleHcoef. rewrite A. set (d := draw (seed + Z.of_nat (k - 1))%Z) in *.
  destruct (0 <? Z.of_nat (length d))%Z eqn:E.
  - apply Z.ltb_lt in E. destruct (Nat.ltb 0 pens && psd).
    + destruct (edf _) as [t e] eqn:X. do 5 eexists. split; [reflexivity|]. split; [exact G|]. split; [reflexivity|].
      split; [lia|]. intros _. cbn. split; [|reflexivity]. destruct fcols; [apply map_length|reflexivity].
    + do 5 eexists. split; [reflexivity|]. split; [exact G|]. split; [reflexivity|].
      split; [lia|]. intros _. cbn. split; [|reflexivity]. destruct fcols; [apply map_length|reflexivity].
  - apply Z.ltb_ge in E. do 5 eexists. split; [reflexivity|]. split; [exact G|]. split; [reflexivity|].
    split; [reflexivity|]. lia.
Qed.

(** C171: what is stored.  With exact columns stored vectors complement the exact part, otherwise they are those drawn. *)
Theorem C171_stored : forall V B R sub add exact cross dot inv draw blk edf (st : store V B R) fcols given pens psd n min seed st' updates total terms,
  (forall y a b, add (sub (sub y a) b) (add a b) = y) -> (0 <= min)%Z ->
  sampleHcoef V B R sub exact cross dot inv draw blk edf st fcols given pens psd n min (Some seed) = Ret (st', updates, total, terms) ->
  (0 < updates)%Z ->
  exists k, first_good (fun z => Z.of_nat (length (draw z))) min seed k /\
    (fcols = true -> st_block st' = Some blk /\
       Forall2 (complements add (fun s => add (exact blk s) (cross blk s)) dot inv) (draw (seed + Z.of_nat (k - 1))%Z) (st_vecs st')) /\
    (fcols = false -> st_block st' = st_block st /\ st_vecs st' = draw (seed + Z.of_nat (k - 1))%Z) /\
    ((0 < pens)%nat -> psd = true -> total = Some (fst (edf st')) /\ terms = Some (snd (edf st'))).
Proof.
  intros V B R sub add exact cross dot inv draw blk edf st fcols given pens psd n min seed st' updates total terms AD M E U.
  destruct (attempts_thirty V R draw min seed M) as (k & G & A). unfold number in *. exists k. split; [exact G|].
  unfold sampleHcoef in E. rewrite A in E. set (d := draw (seed + Z.of_nat (k - 1))%Z) in *.
  assert (F : Forall2 (complements add (fun s => add (exact blk s) (cross blk s)) dot inv) d (map (correct V B R sub exact cross dot inv blk) d)).
  { clear - AD. induction d as [|[[s y] r] d IH]; cbn; constructor; [|exact IH].
    split; [reflexivity|]. split; [apply AD|reflexivity]. }
  destruct (0 <? Z.of_nat (length d))%Z eqn:L.
  - destruct (Nat.ltb 0 pens && psd) eqn:PS.
    + destruct (edf _) as [t e] eqn:X. injection E as <- <- <- <-. cbn [st_vecs st_block].
      split; [intros ->; auto|]. split; [intros ->; auto|]. intros _ _. rewrite X. auto.
    + injection E as <- <- <- <-. cbn [st_vecs st_block].
      split; [intros ->; auto|]. split; [intros ->; auto|]. intros P1 ->. apply Nat.ltb_lt in P1. rewrite P1 in PS. discriminate.
  - injection E as <- <- <- <-. apply Z.ltb_ge in L. lia.
Qed.

(** Numbers as vectors; a draw with an even seed fails. *)
Definition draws (z : Z) : list (Z * Z * Z) := if Z.even z then [] else [(1, 5, 5); (2, 7, 14)]%Z.
Definition again (st : store Z Z Z) (fcols given : bool) (pens : nat) (min : Z) (seed : option Z) :=
  sampleHcoef Z Z Z Z.sub Z.mul (fun b s => b * s * 2)%Z Z.mul Z.opp draws 1%Z (fun st => (Z.of_nat (length (st_vecs st)), [3%Z])) st fcols given pens true 9%Z min seed.
Example C171_draws_case : again (mkStore [] None false) true true 1 1 (Some 4%Z)
  = Ret (mkStore [(1, 2, -2); (2, 1, -2)]%Z (Some 1%Z) true, 2%Z, Some 2%Z, Some [3%Z]).
Proof. reflexivity. Qed.
Example C171_stored_case : forall y a b : Z, (y - a - b + (a + b) = y)%Z.
Proof. intros. lia. Qed.

(** C171 is false for seed=None, which is documented: the call always raises. *)
Theorem C171_seed_refuted : exists st, again st true true 1 0 None = TypeErr.
Proof. exists (mkStore [] None false). reflexivity. Qed.

(** C172: a fit returns the degrees of freedom of the Hessian that it returns, if there are penalties or vectors are not
    drawn again. *)
Theorem C172_defined : forall V B R sub exact cross dot inv draw blk edf qefs control memory fcols pens n total terms (st : store V B R) outer,
  (0 < pens)%nat \/ qefs = false \/ (control = false /\ memory = false) ->
  exists t e st', finish V B R sub exact cross dot inv draw blk edf qefs control memory fcols pens n total terms st outer = Ret (Some t, e, st') /\
    (pens = 0%nat -> t = n /\ e = None) /\
    ((0 < pens)%nat -> (st' = st /\ t = total /\ e = Some terms) \/ (t = fst (edf st') /\ e = Some (snd (edf st')))).
Proof.
  intros V B R sub exact cross dot inv draw blk edf qefs control memory fcols pens n total terms st outer H.
  unfold finish. destruct (qefs && (control || memory)) eqn:Q.
  - assert (P : (0 < pens)%nat).
    { destruct H as [P|[->|(-> & ->)]]; [exact P|discriminate|rewrite andb_false_r in Q; discriminate]. }
    unfold sampleHcoef. destruct (attempts_thirty V R draw 0 outer (Z.le_refl 0)) as (k & _ & A). rewrite A.
    pose proof P as P'. apply Nat.ltb_lt in P'. rewrite P'. cbn [andb].
    destruct (0 <? number V R draw (outer + Z.of_nat (k - 1)))%Z eqn:E.
    + destruct (edf _) as [t e] eqn:X. cbn beta iota. rewrite E. do 3 eexists. split; [reflexivity|].
      split; [lia|]. intros _. right. rewrite X. auto.
    + cbn beta iota. rewrite E. do 3 eexists. split; [reflexivity|]. split; [lia|]. intros _. left. auto.
  - destruct pens as [|p]; cbn; do 3 eexists; (split; [reflexivity|]); (split; [auto; lia|]); intros; [lia|left; auto].
Qed.
Example C172_defined_case : finish Z Z Z Z.sub Z.mul (fun b s => b * s * 2)%Z Z.mul Z.opp draws 1%Z
  (fun st => (Z.of_nat (length (st_vecs st)), [3%Z])) true false true true 2 9%Z 8%Z [4%Z] (mkStore [] None false) 3
  = Ret (Some 2%Z, Some [3%Z], mkStore [(1, 2, -2); (2, 1, -2)]%Z (Some 1%Z) true).
Proof. reflexivity. Qed.

(** C172 is false for models without penalties fitted with method='qEFS' and otherwise default arguments: the number of
    coefficients is replaced by None whenever a vector is drawn. *)
Theorem C172_unpenalised : forall V B R sub exact cross dot inv draw blk edf control fcols n total terms (st : store V B R) outer,
  draw outer <> [] ->
  exists st', finish V B R sub exact cross dot inv draw blk edf true control true fcols 0 n total terms st outer = Ret (None, None, st').
Proof.
  intros V B R sub exact cross dot inv draw blk edf control fcols n total terms st outer H.
  unfold finish. rewrite orb_true_r. cbn [andb]. unfold sampleHcoef.
  assert (A : attempts V R draw 30 0 (Some outer) (-1) [] = Ret (Z.of_nat (length (draw outer)), draw outer)).
  { cbn -[Z.of_nat Z.ltb]. change (-1 <? 0)%Z with true. cbv iota.
    replace (Z.of_nat (length (draw outer)) <? 0)%Z with false by (symmetry; apply Z.ltb_ge; lia). reflexivity. }
  rewrite A. destruct (draw outer) as [|x l] eqn:D; [contradiction|].
  replace (0 <? Z.of_nat (length (x :: l)))%Z with true by (symmetry; apply Z.ltb_lt; cbn [length]; lia).
  cbn [Nat.ltb Nat.leb andb]. 
  replace (0 <? Z.of_nat (length (x :: l)))%Z with true by (symmetry; apply Z.ltb_lt; cbn [length]; lia).
  eexists. reflexivity.
Qed.
Theorem C172_unpenalised_refuted : exists st, finish Z Z Z Z.sub Z.mul (fun b s => b * s * 2)%Z Z.mul Z.opp draws 1%Z
  (fun st => (Z.of_nat (length (st_vecs st)), [3%Z])) true false true false 0 9%Z 9%Z [] (mkStore [] None false) 3 = Ret (None, None, st).
Proof. eexists. reflexivity. Qed.

(** C173: the penalties used are those of the formula or, when restarting, those of the earlier fit; there is one inner
    iteration for models with autoregressive residuals or without penalties and otherwise what was asked for (500 by
    default). *)
Theorem C173_start : forall earlier pens restart max_inner rho n m,
  gamm_start earlier pens restart max_inner rho = Ret (n, m) ->
  (if restart then earlier = Some n else n = pens) /\
  (rho = true \/ n = 0%nat -> match max_inner with Some 0%nat => m = 0%nat | _ => m = 1%nat end) /\
  (rho = false -> n <> 0%nat -> match max_inner with Some k => m = k | None => m = 500%nat end).
Proof.
  intros earlier pens restart max_inner rho n m. unfold gamm_start.
  assert (X : forall p, match (match max_inner with Some m => Ret m | None => if rho then Ret 1%nat else Ret (if Nat.eqb p 0 then 1%nat else 500%nat) end) with
    | Ret m => Ret (p, if Nat.ltb 1 (if Nat.ltb 1 m && rho then 1%nat else m) && Nat.eqb p 0 then 1%nat else if Nat.ltb 1 m && rho then 1%nat else m)
    | TypeErr => TypeErr | ValueErr => ValueErr end = Ret (n, m) ->
    p = n /\ (rho = true \/ n = 0%nat -> match max_inner with Some 0%nat => m = 0%nat | _ => m = 1%nat end) /\
    (rho = false -> n <> 0%nat -> match max_inner with Some k => m = k | None => m = 500%nat end)).
  { intros p. destruct max_inner as [[|[|k]]|].
    - cbn. intros E. injection E as <- <-. auto.
    - cbn. intros E. injection E as <- <-. auto.
    - cbn. destruct rho; cbn.
      + intros E. injection E as <- <-. split; [reflexivity|]. split; [auto|discriminate].
      + destruct p as [|p]; cbn; intros E; injection E as <- <-; (split; [reflexivity|]); (split; [intros [|]; [discriminate|auto; discriminate]|auto; congruence]).
    - destruct rho; cbn.
      + intros E. injection E as <- <-. split; [reflexivity|]. split; [auto|discriminate].
      + destruct (Nat.eqb p 0) eqn:P.
        * cbn. intros E. injection E as <- <-. apply Nat.eqb_eq in P. split; [reflexivity|]. split; [auto|]. congruence.
        * rewrite !andb_false_r. intros E. injection E as <- <-. apply Nat.eqb_neq in P. split; [reflexivity|].
          split; [intros [|]; [discriminate|contradiction]|reflexivity]. }
  destruct restart.
  - destruct earlier as [p|].
    + intros E. destruct (X p E) as (<- & Y). auto.
    + destruct max_inner; [discriminate|]. destruct rho; discriminate.
  - intros E. destruct (X pens E) as (<- & Y). auto.
Qed.
Example C173_start_case : gamm_start (Some 2) 3 true None false = Ret (2, 500) /\ gamm_start None 3 false (Some 7) true = Ret (3, 1).
Proof. split; reflexivity. Qed.
(** C173: restarting before the first fit always raises, *)
Theorem C173_restart : forall pens max_inner rho, gamm_start None pens true max_inner rho = TypeErr \/ gamm_start None pens true max_inner rho = ValueErr.
Proof. intros pens [k|] [|]; cbn; auto. Qed.
(** but with default arguments not with the message written for this case. *)
Theorem C173_message_refuted : exists pens, gamm_start None pens true None false = TypeErr.
Proof. exists 1%nat. reflexivity. Qed.

Print Assumptions C171_draws.
Print Assumptions C171_stored.
Print Assumptions C171_seed_refuted.
Print Assumptions C172_defined.
Print Assumptions C172_unpenalised.
Print Assumptions C172_unpenalised_refuted.
Print Assumptions C173_start.
Print Assumptions C173_restart.
Print Assumptions C173_message_refuted.
