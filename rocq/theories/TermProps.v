(** Terms in several formulas, shared smoothing parameters, penalties of smooth terms (C168-C170). *)
From Coq Require Import List Arith Bool String ZArith Lia.
From Verif Require Import TermModel TermSpec TermProofs.
Import ListNotations.
Local Open Scope nat_scope.

(** C168: formulas without a common term object do not affect each other. *)
Theorem C168_apart : forall D S C T hc cs tr ne d1 d2 (h h1 k2 : heap S C T) l1 l2, apart l1 l2 ->
  formula D S C T hc cs tr ne d1 h l1 = Ok h1 ->
  formula D S C T hc cs tr ne d2 h l2 = Ok k2 ->
  exists h2, formula D S C T hc cs tr ne d2 h1 l2 = Ok h2 /\
    (forall a, In a l1 -> h2 a = h1 a) /\ (forall a, In a l2 -> h2 a = k2 a).
Proof.
  intros D S C T hc cs tr ne d1 d2 h h1 k2 l1 l2 A E1 E2.
  destruct (formula_agree D S C T hc cs tr ne d2 h h1 l2 k2) as (k & E & G); [|exact E2|].
  - intros a I. symmetry. apply (formula_other D S C T hc cs tr ne d1 h l1 h1 E1). intros J. exact (A a J I).
  - exists k. split; [exact E|]. split; [|intros a I; symmetry; apply G; exact I].
    intros a I. apply (formula_other D S C T hc cs tr ne d2 h1 l2 k E). intros J. exact (A a I J).
Qed.

(** C168: using the terms (without subgroups) again with the same data changes nothing. *)
Theorem C168_again : forall D S C T hc cs tr ne d (h h1 : heap S C T) l, NoDup l ->
  (forall a, In a l -> s_sub (h a) = None) -> formula D S C T hc cs tr ne d h l = Ok h1 ->
  exists h2, formula D S C T hc cs tr ne d h1 l = Ok h2 /\ forall a, h2 a = h1 a.
Proof. intros D S C T hc cs tr ne d h h1 l N U E. exact (formula_again D S C T hc cs tr ne d h l h1 N U E). Qed.

(** One smooth term of x and 10 - x. *)
Definition one_term : heap unit (Z * Z) unit := fun _ => mkTerm tt None None true false None None None.
Definition build (d : list Z) (h : heap unit (Z * Z) unit) (l : list nat) :=
  formula (list Z) unit (Z * Z) unit (fun _ _ => true) sums (fun _ _ => tt) (fun _ _ _ => None) d h l.

Example C168_apart_case : exists h1 h2, build [1; 2]%Z one_term [0] = Ok h1 /\ build [3; 8]%Z h1 [1] = Ok h2 /\
  s_Z (h2 0) = Some (3, 17)%Z /\ s_Z (h2 1) = Some (11, 9)%Z.
Proof. eexists. eexists. split; [reflexivity|]. split; [reflexivity|]. split; reflexivity. Qed.
Example C168_again_case : exists h1 h2, build [1; 2]%Z one_term [0; 1] = Ok h1 /\ build [1; 2]%Z h1 [0; 1] = Ok h2 /\
  s_Z (h1 1) = Some (3, 17)%Z /\ s_Z (h2 1) = Some (3, 17)%Z.
Proof. eexists. eexists. split; [reflexivity|]. split; [reflexivity|]. split; reflexivity. Qed.

(** C168 is false for one term in formulas for two data sets: the function of the first formula becomes another one and
    does not sum to zero over its own data any more. *)
Theorem C168_data_refuted : exists d1 d2 h1 h2 z1 z2,
  build d1 one_term [0] = Ok h1 /\ build d2 h1 [0] = Ok h2 /\ s_Z (h1 0) = Some z1 /\ s_Z (h2 0) = Some z2 /\
  fold_right Z.add 0%Z (map (column z1) d1) = 0%Z /\ fold_right Z.add 0%Z (map (column z2) d1) <> 0%Z.
Proof.
  exists [1; 2]%Z, [3; 8]%Z. eexists. eexists. exists (3, 17)%Z, (11, 9)%Z.
  split; [reflexivity|]. split; [reflexivity|]. split; [reflexivity|]. split; [reflexivity|].
  split; [reflexivity|]. vm_compute. discriminate.
Qed.

(** C168 is false for a term that is nested in one formula and alone in another: it keeps losing its coefficients. *)
Theorem C168_nested_refuted : exists (ne : unit -> list nat -> nat -> option (list nat)) h h1 h2 k2,
  let f := formula unit nat unit unit (fun _ _ => true) (fun _ _ => tt) (fun _ _ => tt) ne tt in
  f h [0; 1] = Ok h1 /\ f h1 [1] = Ok h2 /\ f h [1] = Ok k2 /\ s_drop (k2 1) = None /\ s_drop (h2 1) = Some [1].
Proof.
  exists (fun _ ss i => match ss, i with [_; _], 1 => Some [1] | _, _ => None end), (fun a => mkTerm a None None true false None None None).
  eexists. eexists. eexists. cbv zeta.
  split; [reflexivity|]. split; [reflexivity|]. split; [reflexivity|]. split; reflexivity.
Qed.

(** C168 is false for a term with a subgroup: the second formula cannot be built, although nothing else changed. *)
Theorem C168_subgroup_refuted : exists hc (h h1 : heap unit unit unit),
  let f := formula unit unit unit unit hc (fun _ _ => tt) (fun _ _ => tt) (fun _ _ _ => None) tt in
  f h [0] = Ok h1 /\ f h1 [0] = KeyError.
Proof.
  exists (fun _ v => (v =? "sub")%string || (v =? "group")%string)%bool,
    (fun _ => mkTerm tt (Some "sub"%string) (Some ("group"%string, "a"%string)) true false None None None).
  eexists. cbv zeta. split; reflexivity.
Qed.

(** C169: two penalties get one smoothing parameter exactly if the documentation says so, provided there is room between
    the ids of different terms. *)
Theorem C169_documented : forall l p q, (forall t, In t l -> proper t) -> spaced l ->
  In p (all_ids 0 l) -> In q (all_ids 0 l) -> p <> q ->
  (together (combine (all_ids 0 l)) p q <-> documented l p q).
Proof.
  intros l p q R SP IP IQ N. rewrite (together_ids _ p q IP IQ N). apply ids_spaced; assumption.
Qed.

Definition two_tensors : list shared := [mkShared Smooth None (Some 1) 2; mkShared Smooth None (Some 1) 2; mkShared Smooth None (Some 3) 1;
                                         mkShared RandomSlope (Some 2) (Some 4) 1; mkShared Smooth (Some 2) (Some 9) 1].
Example C169_documented_case : (forall t, In t two_tensors -> proper t) /\ spaced two_tensors /\
  map (map (fun p => (l_term p, l_pen p, l_lvl p))) (filter (fun g => 1 <? List.length g) (combine (all_ids 0 two_tensors)))
  = [[(0, 0, 0); (1, 0, 0)]; [(0, 1, 0); (1, 1, 0)]].
Proof.
  split; [cbn; intros t [<-|[<-|[<-|[<-|[<-|[]]]]]]; cbn; auto|].
  split; [unfold spaced; cbn; intros t u a b [<-|[<-|[<-|[<-|[<-|[]]]]]] [<-|[<-|[<-|[<-|[<-|[]]]]]]; cbn; intros; try discriminate; congruence || (repeat match goal with H : Some _ = Some _ |- _ => injection H as <- end; lia)|].
  vm_compute. reflexivity.
Qed.

(** C169 is false if ids are just different: the second penalty of a tensor smooth with id 1 and a smooth with id 2 share
    a parameter, and so do the second level of a random slope with id 1 and a random intercept with id 2. *)
Theorem C169_refuted : exists l p q t u, In p (all_ids 0 l) /\ In q (all_ids 0 l) /\
  nth_error l (l_term p) = Some t /\ nth_error l (l_term q) = Some u /\ i_id t = Some 1 /\ i_id u = Some 2 /\
  i_kind t = Smooth /\ i_kind u = Smooth /\ i_by t = None /\ i_by u = None /\
  together (combine (all_ids 0 l)) p q.
Proof.
  exists [mkShared Smooth None (Some 1) 2; mkShared Smooth None (Some 2) 1].
  exists (mkL 0 1 0 (Some 2)), (mkL 1 0 0 (Some 2)). eexists. eexists. cbn.
  repeat match goal with |- _ /\ _ => split end; try reflexivity; auto.
  exists [mkL 0 1 0 (Some 2); mkL 1 0 0 (Some 2)]. cbn. auto 8.
Qed.
Theorem C169_slope_refuted : exists l p q t u, In p (all_ids 0 l) /\ In q (all_ids 0 l) /\
  nth_error l (l_term p) = Some t /\ nth_error l (l_term q) = Some u /\ i_id t = Some 1 /\ i_id u = Some 2 /\
  i_kind t = RandomSlope /\ i_kind u = RandomIntercept /\ together (combine (all_ids 0 l)) p q.
Proof.
  exists [mkShared RandomSlope (Some 2) (Some 1) 1; mkShared RandomIntercept None (Some 2) 1].
  exists (mkL 0 0 1 (Some 2)), (mkL 1 0 0 (Some 2)). eexists. eexists. cbn.
  repeat match goal with |- _ /\ _ => split end; try reflexivity; auto.
  exists [mkL 0 0 1 (Some 2); mkL 1 0 0 (Some 2)]. cbn. auto 8.
Qed.

(** C170: every penalty is built once for every variable, for the number of functions asked for, and transformed for
    itself if at all. *)
Theorem C170_each : forall P (dflt : P) n binary by_ nk te rp ident ps t, 1 <= n ->
  nk_fits n (binary && ident && negb te) nk -> rp_fits n rp -> no_transform n rp \/ List.length ps = 1 ->
  f_init dflt n binary by_ nk te rp ident KwDict (Some ps) = Ok t ->
  exists bs, build_all t = Ok bs /\ map (fun b => (b_pen P b, b_var P b)) bs = list_prod ps (seq 0 n) /\
    forall b, In b bs -> b_size P b = asked n nk te (binary && ident && negb te) (b_var P b) /\
      (b_rp P b = None <-> no_transform n rp) /\ (b_rp P b = None \/ b_rp P b = Some (b_pen P b)).
Proof.
  intros P dflt n binary by_ nk te rp ident ps t N K R G E.
  destruct (build_all_each dflt n binary by_ nk te rp ident ps t N K R G E) as (tr & B & T1 & T2).
  eexists. split; [exact B|]. split; [apply product_pairs|].
  intros b I. apply in_flat_map in I. destruct I as (p & _ & I). apply in_map_iff in I. destruct I as (v & <- & _). cbn.
  split; [reflexivity|]. split; [apply T1|apply T2].
Qed.
Example C170_each_case : exists t, f_init 2 2 false false (Some (NkList [5; 7])) true (Some 0) true KwDict (Some [1; 3]) = Ok t /\
  nk_fits 2 false (Some (NkList [5; 7])) /\ rp_fits 2 (Some 0) /\ no_transform 2 (Some 0) /\
  build_all t = Ok [mkB 1 0 5 None; mkB 1 1 7 None; mkB 3 0 5 None; mkB 3 1 7 None].
Proof. eexists. split; [reflexivity|]. repeat split; auto. left. reflexivity. Qed.
Example C170_each_case_default : exists t, f_init 2 3 false false None false None true KwDict (Some [1]) = Ok t /\
  build_all t = Ok [mkB 1 0 4 (Some 1); mkB 1 1 4 (Some 1); mkB 1 2 4 (Some 1)].
Proof. eexists. split; reflexivity. Qed.

(** C170 is false for several penalties and the default transformation of tensor smooths: the term is accepted but its
    penalties can never be built. *)
Theorem C170_default : forall P (dflt : P) n binary by_ te ident ps t, 2 <= n -> 2 <= List.length ps ->
  f_init dflt n binary by_ None te None ident KwDict (Some ps) = Ok t -> build_all t = IndexError.
Proof. intros P dflt n binary by_ te ident ps t N L E. exact (build_index dflt n binary by_ te ident ps t N L E). Qed.
Theorem C170_default_refuted : exists ps t, f_init 2 2 false false None false None true KwDict (Some ps) = Ok t /\
  build_all t = IndexError.
Proof. exists [2; 1]. eexists. split; reflexivity. Qed.

(** C170 is false for documented forms of arguments: a list of basis_kwargs for every identifiable term, a list nk for
    binary smooths, and a list nk for one variable. *)
Theorem C170_lists : forall P (dflt : P) n nk te rp ps t, f_init dflt n false false nk te rp true KwList ps = Ok t ->
  build_all t = TypeError.
Proof.
  intros P dflt n nk te rp ps t. unfold f_init. cbn.
  destruct (te && (n =? 1)); [discriminate|].
  match goal with |- (if ?b then _ else _) = _ -> _ => destruct b; [discriminate|] end.
  intros E. injection E as <-. reflexivity.
Qed.
Theorem C170_lists_refuted :
  (exists t, f_init 2 2 false false (Some (NkList [5; 7])) true None true KwList None = Ok t /\ build_all t = TypeError) /\
  f_init 2 2 true false (Some (NkList [5; 7])) false None true KwDict None = TypeError /\
  (exists t, f_init 2 1 false false (Some (NkList [9])) false None true KwDict None = Ok t /\ build_all t = TypeError).
Proof. split; [eexists; split; reflexivity|]. split; [reflexivity|]. eexists. split; reflexivity. Qed.

Print Assumptions C168_apart.
Print Assumptions C168_again.
Print Assumptions C168_data_refuted.
Print Assumptions C168_nested_refuted.
Print Assumptions C168_subgroup_refuted.
Print Assumptions C169_documented.
Print Assumptions C169_refuted.
Print Assumptions C169_slope_refuted.
Print Assumptions C170_each.
Print Assumptions C170_default.
Print Assumptions C170_default_refuted.
Print Assumptions C170_lists.
Print Assumptions C170_lists_refuted.
