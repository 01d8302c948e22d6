(** Lemmas for BudProps. *)
From Coq Require Import List Arith ZArith QArith Qround Bool Lia Sorted FinFun.
From Verif Require Import BudModel BudSpec.
Import ListNotations.
Local Open Scope nat_scope.

Ltac cases := split; intros; repeat match goal with H : _ \/ _ |- _ => destruct H end; subst; auto; try contradiction.
Lemma ins_in : forall c l x, In x (ins c l) <-> x = c \/ In x l.
Proof.
  intros c l x. induction l as [|d l IH]; cbn [ins In]; [cases|].
  destruct (Nat.ltb_spec c d); [cbn [In]; cases|]. destruct (Nat.eqb_spec c d) as [E|N]; [cbn [In]; cases|].
  cbn [In]. rewrite IH. cases.
Qed.
Lemma ins_sorted : forall c l, StronglySorted lt l -> StronglySorted lt (ins c l).
Proof.
  intros c l H. induction H as [|d l H IH F]; cbn [ins]; [repeat constructor|].
  destruct (Nat.ltb_spec c d) as [L|L].
  - constructor; [constructor; assumption|]. constructor; [exact L|]. rewrite Forall_forall in *. intros x I. specialize (F x I). lia.
  - destruct (Nat.eqb_spec c d) as [->|N]; [constructor; assumption|]. constructor; [exact IH|].
    rewrite Forall_forall in *. intros x I. apply ins_in in I. destruct I as [->|I]; [lia|apply F, I].
Qed.
Lemma unique_in : forall l x, In x (unique l) <-> In x l.
Proof. induction l as [|c l IH]; intros x; [tauto|]. cbn. rewrite ins_in, IH. cases. Qed.
Lemma unique_sorted : forall l, StronglySorted lt (unique l).
Proof. induction l as [|c l IH]; [constructor|]. apply ins_sorted, IH. Qed.
Lemma sorted_nodup : forall l, StronglySorted lt l -> NoDup l.
Proof.
  intros l H. induction H as [|d l H IH F]; constructor; [|exact IH]. intros I. rewrite Forall_forall in F. specialize (F d I). lia.
Qed.
Lemma unique_length : forall l, length (unique l) <= length l.
Proof. intros l. apply NoDup_incl_length; [apply sorted_nodup, unique_sorted|]. intros x I. apply unique_in, I. Qed.

Lemma nodup_app : forall (l m : list nat), NoDup l -> NoDup m -> (forall x, In x l -> ~ In x m) -> NoDup (l ++ m).
Proof.
  intros l m Hl Hm D. induction Hl as [|c l Hc Hl IH]; [exact Hm|]. cbn. constructor.
  - rewrite in_app_iff. intros [I|I]; [tauto|]. apply (D c); [left; reflexivity|exact I].
  - apply IH. intros x I. apply D. right. exact I.
Qed.
Lemma nodup_parts : forall (l m : list nat), NoDup (l ++ m) -> NoDup l /\ NoDup m /\ forall x, In x l -> ~ In x m.
Proof.
  intros l m. induction l as [|c l IH]; cbn; intros H; [split; [constructor|split; [exact H|intros x []]]|].
  inversion H as [|? ? Hc Hl]; subst. destruct (IH Hl) as (A & B & C). rewrite in_app_iff in Hc. split; [constructor; tauto|].
  split; [exact B|]. intros x [<-|I]; [tauto|apply C, I].
Qed.
Lemma of_formula_ok : forall s f, well_formed f -> NoDup (of_formula s f) /\ forall c, In c (of_formula s f) -> s <= c < s + n_coef f.
Proof.
  intros s [ts n] [N B]. unfold of_formula in *. cbn [visited n_coef] in *. induction ts as [|[b l] ts IH]; [split; [constructor|intros c []]|].
  cbn [map concat snd flat_map fst] in *. destruct (nodup_parts _ _ N) as (N1 & N2 & D).
  destruct IH as [I1 I2]; [exact N2|intros c I; apply B; rewrite in_app_iff; tauto|].
  assert (X : forall c, In c (flat_map (fun t : bool * list nat => if fst t then [] else map (fun c => c + s) (snd t)) ts) ->
     exists d, c = d + s /\ In d (concat (map snd ts))).
  { clear. intros c I. apply in_flat_map in I. destruct I as [[b l] [I J]]. cbn in J. destruct b; [contradiction|].
    apply in_map_iff in J. destruct J as [d [<- J]]. exists d. split; [reflexivity|]. apply in_concat. exists l. split; [|exact J].
    apply in_map_iff. exists (false, l). split; [reflexivity|exact I]. }
  destruct b; [split; [exact I1|exact I2]|]. split.
  - apply nodup_app; [|exact I1|].
    + apply FinFun.Injective_map_NoDup; [intros x y E; lia|exact N1].
    + intros x I J. apply in_map_iff in I. destruct I as [d [<- I]]. apply X in J. destruct J as [e [E J]].
      assert (d = e) by lia. subst. exact (D e I J).
  - intros c I. apply in_app_iff in I. destruct I as [I|I]; [|apply I2, I]. apply in_map_iff in I. destruct I as [d [<- I]].
    assert (d < n) by (apply B; rewrite in_app_iff; tauto). lia.
Qed.
Lemma of_formulas_ok : forall fs s, (forall f, In f fs -> well_formed f) ->
  let '(l, e) := of_formulas s fs in NoDup l /\ e = s + list_sum (map n_coef fs) /\ forall c, In c l -> s <= c < e.
Proof.
  induction fs as [|f fs IH]; intros s W; cbn [of_formulas map list_sum fold_right].
  - split; [constructor|]. split; [cbn; lia|intros c []].
  - specialize (IH (s + n_coef f) (fun g I => W g (or_intror I))). destruct (of_formulas (s + n_coef f) fs) as [l e].
    destruct IH as (N & E & B). destruct (of_formula_ok s f (W f (or_introl eq_refl))) as [N' B']. split; [|split].
    + apply nodup_app; [exact N'|exact N|]. intros x I J. specialize (B x J). specialize (B' x I). lia.
    + rewrite E. cbn. unfold list_sum. lia.
    + intros c I. unfold list_sum in E. apply in_app_iff in I. destruct I as [I|I]; [specialize (B' c I)|specialize (B c I)]; lia.
Qed.
Lemma candidates_ok : forall fs extra, (forall f, In f fs -> well_formed f) ->
  NoDup (candidates fs extra) /\ forall c, In c (candidates fs extra) -> c < list_sum (map n_coef fs) + extra.
Proof.
  intros fs extra W. unfold candidates. pose proof (of_formulas_ok fs 0 W) as H. destruct (of_formulas 0 fs) as [l e]. destruct H as (N & E & B).
  split.
  - apply nodup_app; [exact N| |].
    + apply FinFun.Injective_map_NoDup; [intros x y Q; lia|apply seq_NoDup].
    + intros x I J. specialize (B x I). apply in_map_iff in J. destruct J as [d [<- J]]. lia.
  - intros c I. apply in_app_iff in I. destruct I as [I|I]; [specialize (B c I); lia|]. apply in_map_iff in I. destruct I as [d [<- I]].
    apply in_seq in I. lia.
Qed.
Lemma reduce_ok : forall choice l b n r, draws choice -> NoDup l -> length l <= n -> reduce choice l b n = Some r ->
  NoDup r /\ incl r l /\ r <> [] /\ length r <= b /\ length r < n \/ 
  NoDup r /\ incl r l /\ r <> [] /\ length r <= b /\ length r <= length l /\ length l < n.
Proof.
  intros choice l b n r C N L E. unfold reduce in E.
  destruct (Nat.eqb_spec (length l) n) as [Q|Q]; cbn [andb] in E.
  - left. destruct (Nat.leb_spec (length l) b) as [B|B].
    + destruct (C l (n - 1) N ltac:(lia)) as (C1 & C2 & C3). destruct (choice l (n - 1)) as [|c q] eqn:F; [discriminate|]. injection E as <-.
      split; [exact C2|]. split; [exact C3|]. split; [discriminate|]. rewrite C1. split; [lia|]. cbn in C1. lia.
    + destruct (Nat.ltb_spec b (length l)); [|lia]. destruct (C l b N ltac:(lia)) as (C1 & C2 & C3).
      destruct (choice l b) as [|c q]; [discriminate|]. injection E as <-. split; [exact C2|]. split; [exact C3|]. split; [discriminate|]. rewrite C1. lia.
  - right. destruct (Nat.ltb_spec b (length l)).
    + destruct (C l b N ltac:(lia)) as (C1 & C2 & C3). destruct (choice l b) as [|c q]; [discriminate|]. injection E as <-.
      split; [exact C2|]. split; [exact C3|]. split; [discriminate|]. rewrite C1. lia.
    + destruct l as [|c l]; [discriminate|]. injection E as <-. split; [exact N|]. split; [apply incl_refl|]. split; [discriminate|]. lia.
Qed.
