(** C197: column orders of structured quasi-Newton storage. *)
From Coq Require Import List Arith Reals Bool Lra Lia Permutation.
From Verif Require Import PrmModel PrmProofs.
Import ListNotations.
Local Open Scope R_scope.

(** ** C197 *)

(** Differenced columns first, in their order, then the others in increasing order; together every coefficient once. *)
Theorem C197_order : forall fcols p, NoDup fcols -> (forall c, In c fcols -> (c < p)%nat) ->
  Permutation (tcols fcols p) (seq 0 p) /\ firstn (length fcols) (tcols fcols p) = fcols /\
  (forall c, In c (skipn (length fcols) (tcols fcols p)) <-> (c < p)%nat /\ ~ In c fcols) /\
  (forall i j, (i < j < p - length fcols)%nat ->
     (nth i (skipn (length fcols) (tcols fcols p)) 0 < nth j (skipn (length fcols) (tcols fcols p)) 0)%nat).
Proof.
  intros fcols p N H. pose proof (tcols_perm fcols p N H) as TP. split; [exact TP|].
  unfold tcols in *. split; [rewrite firstn_app, Nat.sub_diag, firstn_all; apply app_nil_r|].
  assert (E : skipn (length fcols) (fcols ++ acols fcols p) = acols fcols p) by (rewrite skipn_app, Nat.sub_diag, skipn_all; reflexivity).
  rewrite E. split; [apply acols_in|].
  assert (L : length (acols fcols p) = (p - length fcols)%nat).
  { apply Permutation_length in TP. rewrite app_length, seq_length in TP. lia. }
  rewrite <- L. clear. unfold acols.
  assert (G : forall s n q, let l := filter q (seq s n) in (forall k, In k l -> (s <= k)%nat) /\
    forall i j, (i < j < length l)%nat -> (nth i l 0 < nth j l 0)%nat).
  { clear. intros s n q. revert s. induction n as [|n IH]; intros s; cbn zeta; [split; [intros k []|cbn; lia]|].
    destruct (IH (S s)) as [A B]. cbn [seq filter]. cbn zeta in A, B. destruct (q s).
    - split; [intros k [<-|I]; [lia|specialize (A k I); lia]|]. intros i j K. destruct j as [|j]; [lia|]. cbn [length] in K. cbn [nth].
      destruct i as [|i]; [|apply B; lia]. assert (S s <= nth j (filter q (seq (S s) n)) 0)%nat; [apply A, nth_In; lia|lia].
    - split; [intros k I; specialize (A k I); lia|exact B]. }
  intros i j K. destruct (G 0%nat p (fun c => negb (existsb (Nat.eqb c) fcols))) as [_ B]. apply B. exact K.
Qed.

(** P1.T @ H @ P1 has the entries of H in the new order, and P1 @ . @ P1.T puts them back. *)
Theorem C197_P1 : forall fcols p H, NoDup fcols -> (forall c, In c fcols -> (c < p)%nat) ->
  (forall a b, (a < p)%nat -> (b < p)%nat ->
     inner_prod p (P1 fcols p) H a b = H (nth a (fcols ++ acols fcols p) 0%nat) (nth b (fcols ++ acols fcols p) 0%nat)) /\
  (forall i j, (i < p)%nat -> (j < p)%nat -> outer_prod p (P1 fcols p) (inner_prod p (P1 fcols p) H) i j = H i j).
Proof.
  intros fcols p H N R. pose proof (tcols_perm fcols p N R) as TP.
  assert (L : length (tcols fcols p) = p) by (apply Permutation_length in TP; rewrite seq_length in TP; exact TP).
  assert (B : forall c, In c (tcols fcols p) <-> (c < p)%nat).
  { intros c. split; intros I; [apply (Permutation_in _ TP) in I; apply in_seq in I; lia|].
    apply (Permutation_in _ (Permutation_sym TP)). apply in_seq. lia. }
  assert (D : NoDup (tcols fcols p)) by (apply (Permutation_NoDup (Permutation_sym TP)), seq_NoDup).
  assert (X : forall a b, (a < p)%nat -> (b < p)%nat -> inner_prod p (P1 fcols p) H a b = H (nth a (tcols fcols p) 0%nat) (nth b (tcols fcols p) 0%nat)).
  { intros a b Ha Hb. apply inner_entry; [rewrite L; exact Ha|rewrite L; exact Hb|intros c; apply B]. }
  split; [exact X|]. intros i j Hi Hj.
  apply B in Hi, Hj. destruct (In_nth _ _ 0%nat Hi) as [a [Ha Ea]]. destruct (In_nth _ _ 0%nat Hj) as [b [Hb Eb]].
  rewrite <- Ea, <- Eb. pose proof (outer_entry (tcols fcols p) (inner_prod p (P1 fcols p) H) a b D Ha Hb) as O.
  rewrite L in O, Ha, Hb. unfold P1 at 1. rewrite O. apply X; assumption.
Qed.

(** P2 @ Q @ P2.T has the entries of Q for the other columns and zeros for differenced ones. *)
Theorem C197_P2 : forall fcols p Q,
  let q := length (acols fcols p) in
  (forall a b, (a < q)%nat -> (b < q)%nat ->
     outer_prod q (P2 fcols p) Q (nth a (acols fcols p) 0%nat) (nth b (acols fcols p) 0%nat) = Q a b) /\
  (forall i j, In i fcols \/ In j fcols -> outer_prod q (P2 fcols p) Q i j = 0).
Proof.
  intros fcols p Q. cbv zeta. split.
  - intros a b Ha Hb. apply outer_entry; [apply NoDup_filter, seq_NoDup|exact Ha|exact Hb].
  - intros i j H. apply outer_none. destruct H as [H|H]; [left|right]; intros I; apply acols_in in I; tauto.
Qed.

(** A column that is listed twice would make the order longer than the coefficients (fit makes them distinct before, models.py:1120-1122). *)
Theorem C197_twice : exists fcols p, (forall c, In c fcols -> (c < p)%nat) /\ length (tcols fcols p) <> p.
Proof. exists [1; 1]%nat, 3%nat. split; [intros c [<-|[<-|[]]]; lia|cbn; lia]. Qed.

Example C197_case : NoDup [3; 1]%nat /\ (forall c, In c [3; 1]%nat -> (c < 5)%nat) /\ tcols [3; 1]%nat 5 = [3; 1; 0; 2; 4]%nat.
Proof.
  split; [repeat constructor; cbn; intuition lia|]. split; [intros c [<-|[<-|[]]]; lia|reflexivity].
Qed.

Print Assumptions C197_order.
Print Assumptions C197_P1.
Print Assumptions C197_P2.
Print Assumptions C197_twice.
