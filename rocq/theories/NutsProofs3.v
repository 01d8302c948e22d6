(** The doubling loop: which point of a trajectory becomes the next state, with which probability. *)

From Coq Require Import List ZArith Reals Bool Lra Lia FunctionalExtensionality.
From Verif Require Import NutsModel NutsSpec NutsProofs NutsProofs2.
Import ListNotations.
Local Open Scope R_scope.

Section Loop.
Variables (n : nat) (Minv : nat -> vec) (llk : vec -> R) (grad : vec -> vec).
Variables (logu eps H0 : R) (st mo : Z -> vec).
Hypothesis on_path : path n Minv llk grad eps st mo.

Notation cnt := (in_slice_count n Minv llk logu st mo).
Notation slice := (slice n Minv llk logu st mo).
Notation valid := (valid n Minv llk logu st mo).
Notation crit := (crit n Minv mo).
Notation canon := (canon n Minv llk logu H0 st mo).
Notation behaves := (behaves n Minv llk logu H0 st mo).

(** The variables of the loop when the trajectory covers the block of 2 ^ J points from [a]. *)
Definition covers (a : Z) (J : nat) (x : Z) (s : option (R * nat)) : trajectory :=
  Trajectory (st x) (llk (st x)) (st a) (st (a + Z.of_nat (sz J) - 1)%Z) (mo a) (mo (a + Z.of_nat (sz J) - 1)%Z)
             (momenta mo a (sz J)) (cnt a (sz J)) s.

(** Probability of moving from a block to a neighbouring one, and of each of its points. *)
Definition move (own other : Z) (J : nat) : R := chance (INR (cnt other (sz J)) / INR (cnt own (sz J))).
Definition q (b : Z) (J : nat) (k : Z) : R := if slice k then / INR (cnt b (sz J)) else 0.

Definition new_block (v a : Z) (J : nat) : Z := if (v =? -1)%Z then (a - Z.of_nat (sz J))%Z else (a + Z.of_nat (sz J))%Z.
Definition whole (v a : Z) (J : nat) : Z := if (v =? -1)%Z then (a - Z.of_nat (sz J))%Z else a.

Section Value.
Variable phi : Z -> R.

Definition side (next : Z -> Z -> R) (v a : Z) (J : nat) (x : Z) : R :=
  let b := new_block v a J in
  if valid b J
  then zsum b (sz J) (fun k => move a b J * q b J k * next v k) + (1 - move a b J) * next v x
  else phi x.

(** The expectation of [phi] at the next state. *)
Fixpoint value (fuel J : nat) (a x : Z) : R :=
  match fuel with
  | O => phi x
  | S fuel =>
      let next v y := if crit (whole v a J) J then value fuel (S J) (whole v a J) y else phi y in
      1 / 2 * side next (-1) a J x + 1 / 2 * side next 1 a J x
  end.
End Value.

Definition body (fuel J : nat) (s : trajectory) (v : Z) : rnd trajectory :=
  let rb1 := if (v =? -1)%Z then trp s else trm s in
  let re1 := if (v =? -1)%Z then trm s else trp s in
  bind (if (v =? -1)%Z then build_tree n Minv llk grad logu eps H0 (tm s) (trm s) v J
        else build_tree n Minv llk grad logu eps H0 (tp s) (trp s) v J) (fun t =>
  let rb2 := if (v =? -1)%Z then rp t else rm t in
  let re2 := if (v =? -1)%Z then rm t else rp t in
  bind (if sprime t
        then Below (INR (nprime t) / INR (tn s)) (fun hit =>
             Ret (if hit then (stateprime t, Lprime t) else (cstate s, cL s)))
        else Ret (cstate s, cL s)) (fun c =>
  let s' := Trajectory (fst c) (snd c)
              (if (v =? -1)%Z then statem t else tm s) (if (v =? -1)%Z then tp s else statep t)
              (if (v =? -1)%Z then rm t else trm s) (if (v =? -1)%Z then trp s else rp t)
              (vadd (trsum s) (rsum t)) (tn s + nprime t) (Some (aprime t, naprime t)) in
  if sprime t && check_dynamic_divergence n Minv rb1 rb2 re1 re2 (trsum s) (rsum t)
  then doubling n Minv llk grad logu eps H0 fuel (S J) s' else Ret s')).

Lemma doubling_S fuel J s :
  doubling n Minv llk grad logu eps H0 (S fuel) J s
  = Below (1 / 2) (fun low => body fuel J s (if low then (-1)%Z else 1%Z)).
Proof. reflexivity. Qed.

Lemma chance_half : chance (1 / 2) = 1 / 2.
Proof. apply chance_in; lra. Qed.

Lemma move_none own other J : cnt other (sz J) = 0%nat -> move own other J = 0.
Proof.
  intros E. unfold move. rewrite E. cbn [INR]. unfold Rdiv. rewrite Rmult_0_l. apply chance_in; lra.
Qed.

Lemma cnt_halves a J : cnt a (sz (S J)) = (cnt a (sz J) + cnt (a + Z.of_nat (sz J)) (sz J))%nat.
Proof. rewrite sz_S. apply cnt_app. Qed.

(** What the body of the loop does after the new subtree over block [b] with proposal [k]. *)
Lemma body_value phi fuel J a x s v f :
  v = 1%Z \/ v = (-1)%Z -> (forall y, phi y = f (st y)) ->
  (forall b y s, (0 < cnt b (sz (S J)))%nat ->
     mean (doubling n Minv llk grad logu eps H0 fuel (S J) (covers b (S J) y s)) (fun s => f (cstate s))
     = value phi fuel (S J) b y) ->
  (0 < cnt a (sz J))%nat ->
  mean (body fuel J (covers a J x s) v) (fun s => f (cstate s))
  = side phi (fun v y => if crit (whole v a J) J then value phi fuel (S J) (whole v a J) y else phi y) v a J x.
Proof.
  intros Hv Phi IH C. unfold body, side. set (b := new_block v a J). cbv zeta.
  assert (B : behaves b J (if (v =? -1)%Z
       then build_tree n Minv llk grad logu eps H0 (tm (covers a J x s)) (trm (covers a J x s)) v J
       else build_tree n Minv llk grad logu eps H0 (tp (covers a J x s)) (trp (covers a J x s)) v J)).
  { generalize (build_tree_behaves n Minv llk grad logu eps H0 st mo on_path v J Hv b).
    destruct Hv as [-> | ->]; unfold begin, b, new_block; cbn [Z.eqb Pos.eqb covers tm trm tp trp].
    - intros X; exact X.
    - replace (a - Z.of_nat (sz J) + Z.of_nat (sz J))%Z with a by lia. intros X; exact X. }
  rewrite mean_bind. destruct B as [Tr Fa]. destruct (valid b J) eqn:V.
  2:{ specialize (Fa eq_refl).
      rewrite (mean_ext_always _ _ (fun _ => phi x)); [apply mean_const|].
      revert Fa. apply always_impl. intros t ->. cbn [bind mean andb cstate fst covers]. now rewrite Phi. }
  destruct (Tr eq_refl) as [_ (u & Pu & U & M)]. clear Tr Fa. rewrite M.
  assert (S1 : zsum b (sz J) u = 1).
  { match type of M with forall g, mean ?x g = _ => rewrite <- (mean_const x 1), M end. apply zsum_ext. intros; ring. }
  set (next := fun y => if crit (whole v a J) J then value phi fuel (S J) (whole v a J) y else phi y).
  assert (W : cnt (whole v a J) (sz (S J)) = (cnt a (sz J) + cnt b (sz J))%nat).
  { destruct Hv as [-> | ->]; unfold b, new_block, whole; cbn [Z.eqb Pos.eqb]; rewrite cnt_halves; [reflexivity|].
    replace (a - Z.of_nat (sz J) + Z.of_nat (sz J))%Z with a by lia. lia. }
  transitivity (zsum b (sz J) (fun k => u k * (move a b J * next k + (1 - move a b J) * next x))).
  - apply zsum_ext. intros k K. f_equal. rewrite mean_bind.
    cbn [canon sprime stateprime Lprime nprime statem statep rm rp rsum aprime naprime tn mean cstate cL andb bind].
    change (tn (covers a J x s)) with (cnt a (sz J)).
    change (chance (INR (cnt b (sz J)) / INR (cnt a (sz J)))) with (move a b J).
    assert (N : forall y, mean (if check_dynamic_divergence n Minv
                     (if (v =? -1)%Z then trp (covers a J x s) else trm (covers a J x s))
                     (if (v =? -1)%Z then mo (b + Z.of_nat (sz J) - 1)%Z else mo b)
                     (if (v =? -1)%Z then trm (covers a J x s) else trp (covers a J x s))
                     (if (v =? -1)%Z then mo b else mo (b + Z.of_nat (sz J) - 1)%Z)
                     (trsum (covers a J x s)) (momenta mo b (sz J))
                 then doubling n Minv llk grad logu eps H0 fuel (S J)
                        (Trajectory (st y) (llk (st y)) (if (v =? -1)%Z then st b else tm (covers a J x s))
                           (if (v =? -1)%Z then tp (covers a J x s) else st (b + Z.of_nat (sz J) - 1)%Z)
                           (if (v =? -1)%Z then mo b else trm (covers a J x s))
                           (if (v =? -1)%Z then trp (covers a J x s) else mo (b + Z.of_nat (sz J) - 1)%Z)
                           (vadd (trsum (covers a J x s)) (momenta mo b (sz J)))
                           (cnt a (sz J) + cnt b (sz J)) (Some (acc n Minv llk H0 st mo b (sz J), sz J)))
                 else Ret (Trajectory (st y) (llk (st y)) (if (v =? -1)%Z then st b else tm (covers a J x s))
                           (if (v =? -1)%Z then tp (covers a J x s) else st (b + Z.of_nat (sz J) - 1)%Z)
                           (if (v =? -1)%Z then mo b else trm (covers a J x s))
                           (if (v =? -1)%Z then trp (covers a J x s) else mo (b + Z.of_nat (sz J) - 1)%Z)
                           (vadd (trsum (covers a J x s)) (momenta mo b (sz J)))
                           (cnt a (sz J) + cnt b (sz J)) (Some (acc n Minv llk H0 st mo b (sz J), sz J))))
                (fun s => f (cstate s)) = next y).
    { intros y. unfold next.
      match goal with |- context [check_dynamic_divergence n Minv ?p1 ?p2 ?p3 ?p4 ?p5 ?p6] =>
        assert (Cr : check_dynamic_divergence n Minv p1 p2 p3 p4 p5 p6 = crit (whole v a J) J) end.
      { destruct Hv as [-> | ->]; unfold b, new_block, whole; cbn [Z.eqb Pos.eqb covers trp trm trsum]; unfold NutsProofs2.crit.
        - rewrite sz_S. now replace (a + Z.of_nat (sz J) + Z.of_nat (sz J) - 1)%Z with (a + Z.of_nat (sz J + sz J) - 1)%Z by lia.
        - rewrite check_reversed, sz_S. replace (a - Z.of_nat (sz J) + Z.of_nat (sz J))%Z with a by lia.
          now replace (a - Z.of_nat (sz J) + Z.of_nat (sz J + sz J) - 1)%Z with (a + Z.of_nat (sz J) - 1)%Z by lia. }
      rewrite Cr. destruct (crit (whole v a J) J); [|cbn [mean cstate]; now rewrite Phi].
      rewrite <- (IH (whole v a J) y (Some (acc n Minv llk H0 st mo b (sz J), sz J))) by (rewrite W; lia).
      f_equal. f_equal. unfold covers. cbn [trp trm trsum tm tp]. rewrite W. rewrite sz_S, momenta_app.
      destruct Hv as [-> | ->]; unfold b, new_block, whole; cbn [Z.eqb Pos.eqb covers trp trm trsum tm tp].
      - now replace (a + Z.of_nat (sz J) + Z.of_nat (sz J) - 1)%Z with (a + Z.of_nat (sz J + sz J) - 1)%Z by lia.
      - replace (a - Z.of_nat (sz J) + Z.of_nat (sz J))%Z with a by lia.
        replace (a - Z.of_nat (sz J) + Z.of_nat (sz J + sz J) - 1)%Z with (a + Z.of_nat (sz J) - 1)%Z by lia.
        now rewrite vadd_comm. }
    cbn [fst snd]. change (cstate (covers a J x s)) with (st x). change (cL (covers a J x s)) with (llk (st x)).
    rewrite (N k), (N x). reflexivity.
  - rewrite (zsum_ext _ _ _ (fun k => move a b J * (u k * next k) + u k * ((1 - move a b J) * next x))) by (intros; ring).
    rewrite zsum_plus, zsum_scal, zsum_scal_r, S1, Rmult_1_l. f_equal.
    destruct (Nat.eq_dec (cnt b (sz J)) 0) as [Z0|Z0].
    + rewrite (move_none a b J Z0). rewrite Rmult_0_l. symmetry. apply zsum_zero. intros k _. rewrite !Rmult_0_l. reflexivity.
    + rewrite <- zsum_scal. apply zsum_ext. intros k K. assert (Z1 : (0 < cnt b (sz J))%nat) by lia.
      rewrite (U Z1 k K). unfold q. change (if crit (whole v a J) J then value phi fuel (S J) (whole v a J) k else phi k) with (next k).
      rewrite Rmult_assoc. reflexivity.
Qed.

Lemma doubling_value phi f fuel J a x s : (forall y, phi y = f (st y)) -> (0 < cnt a (sz J))%nat ->
  mean (doubling n Minv llk grad logu eps H0 fuel J (covers a J x s)) (fun s => f (cstate s)) = value phi fuel J a x.
Proof.
  intros Phi. revert J a x s. induction fuel; intros J a x s C.
  - cbn. now rewrite Phi.
  - rewrite doubling_S. cbn [mean]. rewrite chance_half.
    rewrite (body_value phi fuel J a x s (-1) f), (body_value phi fuel J a x s 1 f); auto.
    cbn [value]. cbv zeta. lra.
Qed.

End Loop.
