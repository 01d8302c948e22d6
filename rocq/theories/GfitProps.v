(** C142-C146: preparing and resuming the fit of a general model. *)
From Coq Require Import List Arith ZArith QArith Qround Bool Sorted Lia.
From Verif Require Import GfitModel GfitSpec GfitProofs GfitProofs2.
Import ListNotations.
Local Open Scope nat_scope.

(** C142: the positions handed to likelihoods cut the coefficients into one piece per formula, followed by the extra
    coefficients of the family, and nothing is lost. *)
Theorem C142_pieces : forall A (coef : list A) ns extra, ns <> [] -> length coef = list_sum (sizes ns extra) ->
  pieces coef (sizes ns extra) (np_split coef (coef_split_idx ns extra)) /\
  concat (np_split coef (coef_split_idx ns extra)) = coef.
Proof.
  intros A coef ns extra H1 H2. pose proof (split_pieces A coef ns extra H1 H2) as P. split; [exact P|].
  exact (pieces_concat A _ _ _ P H2).
Qed.
Example C142_case :
  coef_split_idx [2; 3; 1] None = [2; 5] /\
  np_split [10; 11; 12; 13; 14; 15] (coef_split_idx [2; 3; 1] None) = [[10; 11]; [12; 13; 14]; [15]] /\
  np_split [10; 11; 12; 13; 14; 15] (coef_split_idx [2; 3] (Some 1)) = [[10; 11]; [12; 13; 14]; [15]] /\
  np_split [10; 11; 12] (coef_split_idx [2] (Some 1)) = [[10; 11]; [12]] /\
  np_split [10; 11; 12] (coef_split_idx [3] None) = [[10; 11; 12]].
Proof. repeat split. Qed.

(** C143: which lambdas a fit starts from. *)
Theorem C143_kept : forall V (d : V) n s g l, st_lams V s = Some l -> start_lams V true d n s g = Done l.
Proof. intros V d n s g l H. unfold start_lams. now rewrite H. Qed.
Theorem C143_first : forall V (d : V) n s g, st_lams V s = None -> start_lams V true d n s g = ValueError.
Proof. intros V d n s g H. unfold start_lams. now rewrite H. Qed.
Theorem C143_new : forall V (d : V) n s g,
  (forall l, init_lambda V g = Some l -> n <= length l -> start_lams V false d n s g = Done (firstn n l)) /\
  (forall l, init_lambda V g = Some l -> length l < n -> start_lams V false d n s g = IndexError) /\
  (forall l, init_lambda V g = None -> fam_lambda V g = Some l -> n <= length l ->
     start_lams V false d n s g = Done (firstn n l)) /\
  (init_lambda V g = None -> fam_lambda V g = None -> start_lams V false d n s g = Done (repeat d n)).
Proof.
  intros V d n s g. unfold start_lams. repeat split.
  - intros l -> H. exact (set_lams_given V d l n 0 H).
  - intros l -> H. apply set_lams_short; lia.
  - intros l -> -> H. exact (set_lams_given V d l n 0 H).
  - intros -> ->. apply set_lams_default.
Qed.
(** Coefficients given by the caller are used; so a fit is resumed if the stored ones are passed. *)
Theorem C143_passed : forall V rvs seed n restart s g (c : list V), st_coef V s = Some c -> init_coef V g = st_coef V s ->
  start_coef V rvs seed n restart s g = c.
Proof. intros V rvs seed n restart s g c H1 H2. unfold start_coef. now rewrite H2, H1. Qed.
(** restart=True does not continue from the stored coefficients. *)
Theorem C143_coef_refuted : exists (s : stored nat) (g : given nat) c, st_coef nat s = Some c /\ init_coef nat g = None /\
  fam_coef nat g = None /\
  forall rvs seed n, start_coef nat rvs seed n true s g = rvs seed n /\
                     start_coef nat rvs seed n true s g = start_coef nat rvs seed n false {| st_lams := None; st_coef := None |} g.
Proof.
  exists {| st_lams := Some [3]; st_coef := Some [7; 8] |},
    {| init_lambda := None; init_coef := None; fam_lambda := None; fam_coef := None |}, [7; 8].
  repeat split.
Qed.
Theorem C143_gammlss_refuted : exists (s : stored nat) (g : given nat) c, st_coef nat s = Some c /\
  init_coef nat g = st_coef nat s /\
  forall rvs seed n, start_coef_gammlss nat rvs seed n true s g <> c.
Proof.
  exists {| st_lams := Some [3]; st_coef := Some [7; 8] |},
    {| init_lambda := None; init_coef := Some [7; 8]; fam_lambda := None; fam_coef := Some [0; 0] |}, [7; 8].
  repeat split. intros. discriminate.
Qed.
Example C143_case :
  let s := {| st_lams := Some [3; 4]; st_coef := Some [7; 8] |} in
  let g := {| init_lambda := Some [5; 6; 9]; init_coef := Some [7; 8]; fam_lambda := None; fam_coef := Some [0; 0] |} in
  start_lams nat true 10 2 s g = Done [3; 4] /\ start_lams nat false 10 2 s g = Done [5; 6] /\
  start_lams nat false 10 4 s g = IndexError /\
  start_lams nat false 10 2 s {| init_lambda := None; init_coef := None; fam_lambda := None; fam_coef := None |} = Done [10; 10] /\
  start_coef nat (fun _ n => repeat 1 n) 0 2 true s g = [7; 8].
Proof. repeat split. Qed.

(** C144: columns of the structured update. *)
Theorem C144_columns : forall choice seed n_coef b fs extra cols m,
  choice_ok choice -> Forall form_ok fs -> NoDup cols -> (forall j, In j cols <-> fixed_column fs extra j) ->
  n_coef = total fs extra -> 0 < n_coef -> budget_is b (length cols) m ->
  exists l, fcols choice seed n_coef true b fs extra = Done (match l with [] => None | _ => Some l end) /\
    StronglySorted lt l /\ (forall j, In j l -> fixed_column fs extra j) /\ length l < n_coef /\
    (m < length cols -> length l = m) /\
    (length cols <= m -> length cols < n_coef -> forall j, fixed_column fs extra j -> In j l) /\
    (length cols <= m -> length cols = n_coef -> length l = n_coef - 1).
Proof. exact fcols_full. Qed.
Theorem C144_given : forall choice seed n_coef l fs extra,
  exists r, fcols choice seed n_coef true (Columns l) fs extra = Done (Some r) /\
    StronglySorted lt r /\ forall j, In j r <-> In j l.
Proof.
  intros. exists (unique l). split; [reflexivity|]. split; [apply unique_sorted|]. apply unique_in.
Qed.
Theorem C144_off : forall choice seed n_coef b fs extra,
  fcols choice seed n_coef false b fs extra = Done None /\
  (forall z, (z <= 0)%Z -> fcols choice seed n_coef true (Number z) fs extra = Done None) /\
  (forall q, (q <= 0)%Q -> fcols choice seed n_coef true (Share q) fs extra = Done None).
Proof.
  intros. split; [reflexivity|]. split.
  - intros z H. unfold fcols, positive. rewrite (proj2 (Z.ltb_ge 0 z) H). reflexivity.
  - intros q H. unfold fcols, positive. rewrite (proj2 (Qle_bool_iff q 0) H). reflexivity.
Qed.

(** A formula with an intercept, a smooth whose null space is penalised, a factor smooth and random intercepts. *)
Definition form1 : form := {| f_coef := 7; f_terms :=
  [{| t_kind := Random; t_null := false; t_idx := [5; 6] |}; {| t_kind := FactorSmooth; t_null := true; t_idx := [3; 4] |};
   {| t_kind := Smooth; t_null := true; t_idx := [1; 2] |}; {| t_kind := Linear; t_null := false; t_idx := [0] |}] |}.
Definition form2 : form := {| f_coef := 2; f_terms := [{| t_kind := Linear; t_null := false; t_idx := [0; 1] |}] |}.
Lemma form1_ok : form_ok form1.
Proof.
  split; [repeat (constructor; [cbn; intuition discriminate|]); constructor|]. cbn. intros c H.
  repeat (destruct H as [<-|H]; [lia|]). easy.
Qed.
Lemma form2_ok : form_ok form2.
Proof.
  split; [repeat (constructor; [cbn; intuition discriminate|]); constructor|]. cbn. intros c H.
  repeat (destruct H as [<-|H]; [lia|]). easy.
Qed.
Lemma first_n_ok : choice_ok first_n.
Proof.
  intros seed l n H N. unfold first_n. repeat split.
  - rewrite firstn_length. lia.
  - rewrite <- (firstn_skipn n l) in N. exact (nodup_left _ _ N).
  - intros x Hx. rewrite <- (firstn_skipn n l). apply in_app_iff. now left.
Qed.
(** Smooths without an unpenalised part count as fixed, too. *)
Theorem C144_null_refuted : exists fs, Forall form_ok fs /\
  exists l j, fcols first_n 0 (total fs None) true (Share 1) fs None = Done (Some l) /\ In j l /\
    forall i f t c, nth_error fs i = Some f -> In t (f_terms f) -> In c (t_idx t) -> j = before (map f_coef fs) i + c ->
      t_null t = true.
Proof.
  exists [form1]. split; [constructor; [exact form1_ok|constructor]|].
  exists [0; 1; 2], 1. split; [vm_compute; reflexivity|]. split; [right; now left|].
  intros [|[|i]] f t c H1 H2 H3 H4; try discriminate. injection H1 as <-. cbn in H2.
  unfold before in H4. cbn in H4. subst c.
  repeat (destruct H2 as [<-|H2]; [cbn in *; try reflexivity; intuition discriminate|]). easy.
Qed.
(** A budget above one must not be a float. *)
Theorem C144_float_refuted : exists fs b, Forall form_ok fs /\
  fcols first_n 0 (total fs None) true (Number b) fs None = Done (Some [0; 1]) /\
  fcols first_n 0 (total fs None) true (Share (inject_Z b)) fs None = TypeError.
Proof.
  exists [form1], 2%Z. split; [constructor; [exact form1_ok|constructor]|]. split; vm_compute; reflexivity.
Qed.
Example C144_case :
  Forall form_ok [form1; form2] /\ choice_ok first_n /\ NoDup [0; 1; 2; 7; 8; 9] /\
  (forall j, In j [0; 1; 2; 7; 8; 9] <-> fixed_column [form1; form2] (Some 1) j) /\ total [form1; form2] (Some 1) = 10 /\
  budget_is (Share (1 # 2)) 6 3 /\ budget_is (Number 4) 6 4 /\
  fcols first_n 0 10 true (Share (1 # 2)) [form1; form2] (Some 1) = Done (Some [0; 1; 2]) /\
  fcols first_n 0 10 true (Share 1) [form1; form2] (Some 1) = Done (Some [0; 1; 2; 7; 8; 9]) /\
  fcols first_n 0 2 true (Share 1) [form2] None = Done (Some [0]) /\
  fcols first_n 0 1 true (Number 3) [] (Some 1) = Done None.
Proof.
  split; [constructor; [exact form1_ok|constructor; [exact form2_ok|constructor]]|].
  split; [exact first_n_ok|]. split; [repeat (constructor; [cbn; intuition discriminate|]); constructor|].
  split. { intros j. rewrite <- candidates_in. unfold candidates. cbn. intuition. }
  split; [reflexivity|].
  split. { cbn. unfold rounded_share. repeat split; try (unfold Qlt, Qle; cbn; lia). }
  split. { cbn. lia. }
  repeat split.
Qed.

(** C145: rows of the responses and of the model matrices. *)
Theorem C145_aligned : forall Y C X (ls : list (lhs Y C X)) mask,
  (forall l, In l ls -> rows_ok l /\ present (v_y Y C X l) = mask) ->
  forall l k, In l ls ->
    nth_error (get_mmat Y C X true l) k = entry mask (v_rows Y C X l (v_cov Y C X l)) k /\
    (v_f Y C X l = None -> nth_error (get_y Y C X true l) k = entry mask (v_y Y C X l) k).
Proof.
  intros Y C X ls mask H l k Hl. destruct (H l Hl) as [[R1 R2] Hm].
  assert (Hn : not_na Y C X l = mask).
  { rewrite <- Hm. unfold not_na, present. apply map_ext. intros [y|]; reflexivity. }
  assert (Hlen : length mask = length (v_y Y C X l)) by (rewrite <- Hm; unfold present; apply map_length).
  split.
  - unfold get_mmat. rewrite Hn. destruct (v_irf Y C X l).
    + unfold entry. apply masked_kth. congruence.
    + destruct R2 as [row R2]. rewrite !R2, <- map_masked. unfold entry. apply masked_kth. rewrite map_length. congruence.
  - intros Hf. unfold get_y. rewrite Hf, Hn. unfold entry. apply masked_kth. exact Hlen.
Qed.
Theorem C145_all : forall Y C X (l : lhs Y C X),
  get_mmat Y C X false l = v_rows Y C X l (v_cov Y C X l) /\ (v_f Y C X l = None -> get_y Y C X false l = v_y Y C X l).
Proof.
  intros. unfold get_mmat, get_y. split; [destruct (v_irf Y C X l); reflexivity|]. now intros ->.
Qed.
(** A transformation is given the responses of the rows that are kept, all and in order. *)
Theorem C145_transformed : forall Y C X (l : lhs Y C X) f, v_f Y C X l = Some f ->
  get_y Y C X false l = f (v_y Y C X l) /\
  exists z, get_y Y C X true l = f z /\ forall k, nth_error z k = entry (present (v_y Y C X l)) (v_y Y C X l) k.
Proof.
  intros Y C X l f E. unfold get_y. rewrite E. split; [reflexivity|]. eexists. split; [reflexivity|].
  assert (Hn : not_na Y C X l = present (v_y Y C X l)) by (unfold not_na, present; apply map_ext; intros [y|]; reflexivity).
  intros k. rewrite Hn. unfold entry. apply masked_kth. unfold present. now rewrite map_length.
Qed.
Example C145_transformed_case : let l := Build_lhs nat nat nat 0 (Some (@rev (option nat))) [None; Some 1; Some 2] false [10; 20; 30] (fun c => c) in
  get_y nat nat nat true l = [Some 2; Some 1].
Proof. reflexivity. Qed.
(** The response of a formula is left out exactly if it is that of the first formula. *)
Theorem C145_repeated : forall Y C X drop (first : lhs Y C X) r,
  nth_error (get_ys Y C X drop (first :: r)) 0 = Some (Some (get_y Y C X drop first)) /\
  forall i l, nth_error r i = Some l ->
    (v_name Y C X l = v_name Y C X first /\ v_f Y C X l = None /\ v_f Y C X first = None ->
       nth_error (get_ys Y C X drop (first :: r)) (S i) = Some None) /\
    (~ (v_name Y C X l = v_name Y C X first /\ v_f Y C X l = None /\ v_f Y C X first = None) ->
       nth_error (get_ys Y C X drop (first :: r)) (S i) = Some (Some (get_y Y C X drop l))).
Proof.
  intros Y C X drop first r. split; [reflexivity|]. intros i l Hi. cbn [get_ys nth_error].
  rewrite (map_nth_error _ _ _ Hi). unfold same_as_first.
  split.
  - intros [-> [-> ->]]. now rewrite Nat.eqb_refl.
  - intros H. destruct (v_name Y C X l =? v_name Y C X first) eqn:E; [|reflexivity]. apply Nat.eqb_eq in E.
    destruct (v_f Y C X l) eqn:F1; [reflexivity|]. destruct (v_f Y C X first) eqn:F2; [reflexivity|].
    exfalso. now apply H.
Qed.

Definition lhs1 : lhs nat nat nat :=
  {| v_name := 0; v_f := None; v_y := [None; Some 1; Some 2]; v_irf := false; v_cov := [10; 20; 30]; v_rows := map (fun c => c) |}.
Definition lhs2 : lhs nat nat nat :=
  {| v_name := 1; v_f := None; v_y := [Some 5; Some 6; None]; v_irf := false; v_cov := [10; 20; 30]; v_rows := map (fun c => c) |}.
Definition lhs3 : lhs nat nat nat :=
  {| v_name := 0; v_f := None; v_y := [None; Some 1; Some 2]; v_irf := true; v_cov := [10; 20; 30];
     v_rows := fun cov => map (fun c => c + length cov) cov |}.
(** Every formula drops the rows of its own response: the first rows of the two matrices belong to different rows of the
    data although both have two rows. *)
Theorem C145_refuted : exists ls : list (lhs nat nat nat), Forall rows_ok ls /\
  map (get_ys nat nat nat true) [ls] = [[Some [Some 1; Some 2]; Some [Some 5; Some 6]]] /\
  map (get_mmat nat nat nat true) ls = [[20; 30]; [10; 20]] /\
  map (v_cov nat nat nat) ls = [[10; 20; 30]; [10; 20; 30]].
Proof.
  exists [lhs1; lhs2]. split; [|repeat split].
  repeat constructor; cbn; exists (fun c => c); reflexivity.
Qed.
Example C145_case :
  (forall l, In l [lhs1; lhs3] -> rows_ok l /\ present (v_y nat nat nat l) = [false; true; true]) /\
  get_ys nat nat nat true [lhs1; lhs3] = [Some [Some 1; Some 2]; None] /\
  map (get_mmat nat nat nat true) [lhs1; lhs3] = [[20; 30]; [23; 33]].
Proof.
  split; [|split; reflexivity]. intros l [<-|[<-|[]]]; (split; [|reflexivity]); split; try reflexivity.
  exists (fun c => c). reflexivity.
Qed.

(** C146: numbers of sampled vectors. *)
Theorem C146_none : forall n_coef cols usage final b n m, (0 <= usage)%Q -> (0 <= final)%Q ->
  n_coef = b + match cols with None => 0 | Some l => length l end ->
  rounded_share usage b n -> rounded_share final b m ->
  fit_options n_coef cols usage (Some final) None = ({| u_fit := n; u_final := m |}, None).
Proof.
  intros n_coef cols usage final b n m H1 H2 Hb Hn Hm. unfold fit_options, n_updates.
  assert (E : match cols with None => n_coef | Some l => n_coef - length l end = b) by (destruct cols; lia).
  rewrite E. now rewrite (share_rounded usage b n H1 Hn), (share_rounded final b m H2 Hm).
Qed.
Theorem C146_given : forall n_coef cols usage final n,
  u_fit (fst (fit_options n_coef cols usage final (Some (Some n)))) = n /\
  fit_options n_coef cols usage None (Some (Some n)) = ({| u_fit := n; u_final := n |}, Some (Some n)).
Proof. intros. split; reflexivity. Qed.
(** The dictionary of the caller is changed: the same call with the same arguments samples other numbers of vectors the
    second time, be it with a number given or with qEFS_memory_usage. *)
Theorem C146_repeated_refuted : exists n_coef usage final,
  (let (u1, d1) := fit_options n_coef None usage final (Some None) in
   let (u2, _) := fit_options n_coef None usage final d1 in u_fit u1 = 10 /\ u_fit u2 = 100) /\
  (let (u1, d1) := fit_options n_coef None usage final (Some (Some 5)) in
   let (u2, _) := fit_options n_coef None usage final d1 in u_fit u1 = 5 /\ u_fit u2 = 100).
Proof. exists 100, (1 # 10)%Q, (Some 1%Q). split; vm_compute; split; reflexivity. Qed.
(** A second model samples the number of vectors of the first. *)
Theorem C146_other_refuted : exists final usage,
  let (u1, d1) := fit_options 6 None usage final (Some None) in
  let (u2, _) := fit_options 20 None usage final d1 in
  u_fit u2 = 6 /\ u_fit (fst (fit_options 20 None usage final (Some None))) = 20.
Proof. exists None, 1%Q. vm_compute. split; reflexivity. Qed.
Example C146_case :
  rounded_share (1 # 10) 97 9 /\ rounded_share 1 97 97 /\
  fit_options 100 (Some [0; 1; 2]) (1 # 10) (Some 1%Q) None = ({| u_fit := 9; u_final := 97 |}, None).
Proof.
  unfold rounded_share. repeat split; try (unfold Qlt, Qle; cbn; lia); try lia; try (right; unfold Qle; cbn; lia).
Qed.

Print Assumptions C142_pieces. Print Assumptions C143_kept. Print Assumptions C143_first. Print Assumptions C143_new.
Print Assumptions C143_passed. Print Assumptions C143_coef_refuted. Print Assumptions C143_gammlss_refuted.
Print Assumptions C144_columns. Print Assumptions C144_given. Print Assumptions C144_off. Print Assumptions C144_null_refuted.
Print Assumptions C144_float_refuted. Print Assumptions C145_aligned. Print Assumptions C145_all.
Print Assumptions C145_transformed. Print Assumptions C145_repeated.
Print Assumptions C145_refuted. Print Assumptions C146_none. Print Assumptions C146_given.
Print Assumptions C146_repeated_refuted. Print Assumptions C146_other_refuted.
