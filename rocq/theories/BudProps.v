(** C198: columns that are differenced in the structured quasi-Newton method. *)
From Coq Require Import List Arith ZArith QArith Qround Bool Lia Sorted FinFun.
From Verif Require Import BudModel BudSpec BudProofs.
Import ListNotations.
Local Open Scope nat_scope.

(** ** C198 *)

(** Columns chosen by the routine: increasing, coefficients of visited terms, within the budget, at least one, and at least
    one coefficient is left to the updates. *)
Theorem C198_chosen : forall choice bg fs extra r, draws choice -> (forall f, In f fs -> well_formed f) ->
  (forall l, bg <> Columns l) ->
  let ncoef := list_sum (map n_coef fs) + extra in
  fcols choice bg fs extra ncoef = Some r ->
  StronglySorted lt r /\ incl r (candidates fs extra) /\ (forall c, In c r -> c < ncoef) /\
  allows bg (length (candidates fs extra)) (length r) /\ 1 <= length r < ncoef.
Proof.
  intros choice bg fs extra r C W NC. cbv zeta. intros E. destruct (candidates_ok fs extra W) as [N B].
  set (n := list_sum (map n_coef fs) + extra) in *.
  assert (L : length (candidates fs extra) <= n).
  { rewrite <- (seq_length n 0). apply NoDup_incl_length; [exact N|]. intros c I. apply in_seq. specialize (B c I). lia. }
  assert (X : forall b, option_map unique (reduce choice (candidates fs extra) b n) = Some r ->
     StronglySorted lt r /\ incl r (candidates fs extra) /\ length r <= b /\ 1 <= length r < n).
  { intros b F. destruct (reduce choice (candidates fs extra) b n) as [q|] eqn:R; [|discriminate]. injection F as <-.
    destruct (reduce_ok _ _ _ _ _ C N L R) as [(A1 & A2 & A3 & A4 & A5)|(A1 & A2 & A3 & A4 & A5 & A6)];
      (split; [apply unique_sorted|]; split; [intros x I; apply A2, unique_in, I|]; pose proof (unique_length q);
       assert (1 <= length (unique q)); [|lia];
       destruct q as [|c q]; [congruence|]; assert (I : In c (unique (c :: q))) by (apply unique_in; left; reflexivity);
       destruct (unique (c :: q)); [contradiction|cbn; lia]). }
  unfold fcols in E. destruct bg as [l|k|q]; [exfalso; exact (NC l eq_refl)| |].
  - destruct (Z.ltb_spec 0 k) as [K|K]; [|discriminate]. destruct (X _ E) as (X1 & X2 & X3 & X4).
    split; [exact X1|]. split; [exact X2|]. split; [intros c I; apply B, X2, I|]. split; [cbn; lia|exact X4].
  - destruct (Qle_bool q 0) eqn:Q0; [discriminate|]. cbn [negb] in E. destruct (X _ E) as (X1 & X2 & X3 & X4).
    split; [exact X1|]. split; [exact X2|]. split; [intros c I; apply B, X2, I|]. split; [|exact X4]. cbn [allows].
    destruct (Nat.le_gt_cases (length r) 1) as [Y|Y]; [left; exact Y|right].
    set (z := (q * inject_Z (Z.of_nat (length (candidates fs extra))))%Q) in *.
    assert (Z1 : (Z.of_nat (length r) <= Qround.Qfloor z)%Z) by lia.
    eapply Qle_trans; [|apply Qround.Qfloor_le]. rewrite <- Zle_Qle. exact Z1.
Qed.
(** A positive budget chooses columns whenever there are some and not only one coefficient. *)
Theorem C198_some : forall choice bg fs extra, draws choice -> (forall f, In f fs -> well_formed f) ->
  match bg with Columns _ => False | Count k => (0 < k)%Z | Part q => (0 < q)%Q end ->
  let ncoef := list_sum (map n_coef fs) + extra in
  2 <= ncoef -> candidates fs extra <> [] -> exists r, fcols choice bg fs extra ncoef = Some r.
Proof.
  intros choice bg fs extra C W P. cbv zeta. intros H NE. destruct (candidates_ok fs extra W) as [N B].
  set (n := list_sum (map n_coef fs) + extra) in *. set (l := candidates fs extra) in *.
  assert (L0 : 1 <= length l) by (destruct l; [congruence|cbn; lia]).
  assert (X : forall b, 1 <= b -> exists r, option_map unique (reduce choice l b n) = Some r).
  { intros b Hb. unfold reduce. destruct (Nat.eqb_spec (length l) n) as [Q|Q]; cbn [andb].
    - destruct (Nat.leb_spec (length l) b) as [Y|Y].
      + destruct (C l (n - 1) N ltac:(lia)) as (C1 & _ & _). destruct (choice l (n - 1)); [cbn in C1; lia|eexists; reflexivity].
      + destruct (Nat.ltb_spec b (length l)); [|lia]. destruct (C l b N ltac:(lia)) as (C1 & _ & _).
        destruct (choice l b); [cbn in C1; lia|eexists; reflexivity].
    - destruct (Nat.ltb_spec b (length l)).
      + destruct (C l b N ltac:(lia)) as (C1 & _ & _). destruct (choice l b); [cbn in C1; lia|eexists; reflexivity].
      + destruct l; [congruence|eexists; reflexivity]. }
  unfold fcols. fold l. destruct bg as [c|k|q]; [contradiction| |].
  - destruct (Z.ltb_spec 0 k); [|lia]. apply X. lia.
  - destruct (Qle_bool q 0) eqn:E; [apply Qle_bool_iff in E; exfalso; exact (Qlt_not_le _ _ P E)|]. cbn [negb]. apply X. lia.
Qed.
(** Columns listed by the user: the same ones, increasing. *)
Theorem C198_listed : forall choice l fs extra ncoef, exists r, fcols choice (Columns l) fs extra ncoef = Some r /\
  StronglySorted lt r /\ forall c, In c r <-> In c l.
Proof. intros. exists (unique l). split; [reflexivity|]. split; [apply unique_sorted|apply unique_in]. Qed.
(** But they are not checked: they may leave no coefficient to the updates, or not be coefficients. *)
Theorem C198_refuted : exists choice l fs extra r, draws choice /\ (forall f, In f fs -> well_formed f) /\
  let ncoef := list_sum (map n_coef fs) + extra in
  fcols choice (Columns l) fs extra ncoef = Some r /\ ~ (1 <= length r < ncoef) .
Proof.
  exists (fun l k => firstn k l), [0; 1], [{| visited := [(false, [0; 1])]; n_coef := 2 |}], 0, [0; 1].
  split.
  { intros l k N H. split; [rewrite firstn_length; lia|]. rewrite <- (firstn_skipn k l) in N. apply nodup_parts in N. split; [tauto|].
    intros x I. rewrite <- (firstn_skipn k l). apply in_app_iff. left. exact I. }
  split.
  { intros f [<-|[]]. unfold well_formed. cbn. split; [repeat constructor; cbn; intuition lia|intros c [<-|[<-|[]]]; lia]. }
  cbn. split; [reflexivity|lia].
Qed.

Example C198_case : let fs := [{| visited := [(false, [0]); (true, [1; 2]); (false, [3; 4])]; n_coef := 5 |};
                               {| visited := [(false, [0; 1])]; n_coef := 2 |}] in
  (forall f, In f fs -> well_formed f) /\ candidates fs 1 = [0; 3; 4; 5; 6; 7] /\
  fcols (fun l k => firstn k l) (Count 2) fs 1 8 = Some [0; 3] /\ fcols (fun l k => firstn k l) (Part (1 # 2)) fs 1 8 = Some [0; 3; 4].
Proof.
  cbv zeta. split; [|repeat split; reflexivity].
  intros f [<-|[<-|[]]]; unfold well_formed; cbn; (split; [repeat constructor; cbn; intuition lia|intuition lia]).
Qed.

Print Assumptions C198_chosen.
Print Assumptions C198_some.
Print Assumptions C198_listed.
Print Assumptions C198_refuted.
