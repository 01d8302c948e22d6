(** Properties C01-C06, C57 and C63: penalties. *)

From Coq Require Import List Arith Bool Lia Permutation Ring ZArith Sorted Reals Lra.
From Verif Require Import PenModel PenSpec PenSpecR PenProofs PenProofs2 PenProofs3 PenProofs4
  PenProofs5 PenProofs6 PenProofs7.
Import ListNotations.
Local Open Scope nat_scope.

Section Generic.
Variable K : Type.
Variables (k0 k1 : K) (kadd kmul ksub : K -> K -> K) (kopp : K -> K).
Variable Kring : ring_theory k0 k1 kadd kmul ksub kopp (@eq K).

(** ** C01 *)

(** Merging never fails. *)
Theorem C01_merge_defined : forall ps : list (lterm K),
  exists r, combine_shared_penalties kadd ps = Some r.
Proof. exact (combine_defined k0 kadd). Qed.

(** Merging keeps the total penalty if no id is used by a single penalty only. *)
Theorem C01_merge_total : forall (ps r : list (lterm K)) i j,
  same_lam ps -> no_single_id ps -> combine_shared_penalties kadd ps = Some r ->
  total k0 kadd kmul r i j = total k0 kadd kmul ps i j.
Proof. intros. eapply combine_total; eauto. Qed.

(** Splitting the merged list gives back the merged penalties, each exactly once ... *)
Theorem C01_split_merge : forall ps r : list (lterm K),
  same_lam ps -> no_single_id ps -> (forall p, In p ps -> plain p) ->
  (forall p, In p ps -> t_id p <> None -> default_flags p) ->
  combine_shared_penalties kadd ps = Some r ->
  Permutation (split_shared_penalties r) ps.
Proof. exact (split_combine_perm k0 kadd). Qed.

(** ... and so keeps the total penalty. *)
Theorem C01_split_total : forall (ps r : list (lterm K)) i j,
  same_lam ps -> no_single_id ps -> (forall p, In p ps -> plain p) ->
  (forall p, In p ps -> t_id p <> None -> default_flags p) ->
  combine_shared_penalties kadd ps = Some r ->
  total k0 kadd kmul (split_shared_penalties r) i j = total k0 kadd kmul ps i j.
Proof.
  intros. unfold total. apply (lsum_perm Kring). eapply split_combine_perm; eauto.
Qed.

(** In a list sorted by start position, the penalties of each id, and those without an id,
    come back in their order. *)
Theorem C01_split_order : forall ps r : list (lterm K),
  good ps -> combine_shared_penalties kadd ps = Some r ->
  Sorted (@start_le K) (split_shared_penalties r) /\
  (forall k, with_id k (split_shared_penalties r) = with_id k ps) /\
  filter (fun p => if optnat_eq_dec (t_id p) None then true else false) (split_shared_penalties r)
  = filter (fun p => if optnat_eq_dec (t_id p) None then true else false) ps.
Proof.
  intros ps r Hg Hr. destruct (split_order K k0 kadd ps r Hg Hr) as (_ & HS & Hk & Hn & _).
  split; [assumption|]. split; [intros k; rewrite !with_id_has; apply Hk|].
  assert (E : forall l : list (lterm K),
     filter (fun p => if optnat_eq_dec (t_id p) None then true else false) l = filter (no_id K) l).
  { intros l. apply filter_ext. intros p. unfold no_id. destruct (optnat_eq_dec (t_id p) None) as [->|n];
      [reflexivity|]. destruct (t_id p); [reflexivity|congruence]. }
  now rewrite !E.
Qed.

(** A merged penalty has the ranks of its parts added up. *)
Theorem C01_merge_rank : forall ps r : list (lterm K), no_single_id ps ->
  combine_shared_penalties kadd ps = Some r ->
  forall q k, In q r -> t_id q = Some k ->
  t_rank q = fold_right Nat.add 0 (map (@t_rank K) (with_id k ps)).
Proof. intros ps r Hs Hr q k Hq Hk. rewrite with_id_has. eapply combine_rank; eauto. Qed.

(** ** C02 *)

(** A block that fits can be embedded, for every number of repetitions ... *)
Theorem C02_embedding_defined : forall (ts : triplets K) d L col cur,
  in_shape d ts = true -> 0 < L -> cur + L * d <= col ->
  exists SJ Semb idx rep, build_by_id_penalty k0 kadd ts d L col cur = Some (SJ, Semb, idx, rep).
Proof. exact (build_by_id_defined K k0 kadd). Qed.

(** ... the repetitions are consecutive diagonal blocks from the term's first coefficient on,
    every other entry is zero ... *)
Theorem C02_embedding : forall (ts : triplets K) d L col cur SJ Semb idx rep,
  in_shape d ts = true -> 0 < d -> 0 < L ->
  build_by_id_penalty k0 kadd ts d L col cur = Some (SJ, Semb, idx, rep) ->
  rep = L /\ idx = cur + L * d /\ (forall i j, SJ i j = csc k0 kadd ts i j) /\
  (forall i j, Semb i j = blockdiag k0 cur d L SJ i j).
Proof. exact (build_by_id_spec K k0 k1 kadd kmul ksub kopp Kring). Qed.

(** ... so the penalty of a coefficient vector is the sum of the penalties of its slices. *)
Theorem C02_quadratic_form : forall (ts : triplets K) d L col cur SJ Semb idx rep b,
  in_shape d ts = true -> 0 < d -> 0 < L -> cur + L * d <= col ->
  build_by_id_penalty k0 kadd ts d L col cur = Some (SJ, Semb, idx, rep) ->
  quad k0 kadd kmul col Semb b
  = nsum k0 kadd L (fun r => quad k0 kadd kmul d SJ (from (cur + r * d) b)).
Proof.
  intros ts d L col cur SJ Semb idx rep b H1 H2 H3 H4 H5.
  destruct (build_by_id_spec K k0 k1 kadd kmul ksub kopp Kring _ _ _ _ _ _ _ _ _ H1 H2 H3 H5)
    as (_ & _ & _ & E).
  rewrite <- (quad_blockdiag K k0 k1 kadd kmul ksub kopp Kring col cur d L SJ b H2 H4).
  unfold quad. apply nsum_ext. intros i _. apply nsum_ext. intros j _. now rewrite E.
Qed.

(** The penalty of one formula inside a model with several formulas sits at the offset of the
    formula's coefficients and keeps its entries. *)
Theorem C02_embed_formula : forall n_coefs extra fi (p : lterm K),
  fi < length n_coefs ->
  (forall i j, (nth fi n_coefs 0 <= i \/ nth fi n_coefs 0 <= j) -> t_Semb p i j = k0) ->
  (forall i j, (nth fi n_coefs 0 <= i \/ nth fi n_coefs 0 <= j) -> t_Demb p i j = k0) ->
  let q := embed_one k0 n_coefs extra fi p in
  let off := fold_right Nat.add 0 (firstn fi n_coefs) in
  t_start q = t_start p + off /\ t_lam q = t_lam p /\ t_id q = t_id p /\ t_rep q = t_rep p /\
  t_dim q = t_dim p /\ (forall i j, t_S q i j = t_S p i j) /\
  (forall i j, t_Semb q i j = placed k0 off (nth fi n_coefs 0) (t_Semb p) i j) /\
  (forall i j, t_Demb q i j = placed k0 off (nth fi n_coefs 0) (t_Demb p) i j).
Proof. exact (embed_one_spec K k0). Qed.

(** The total penalty of a list is the lambda-weighted sum of the embedded penalties. *)
Theorem C02_weighted_sum : forall (ps : list (lterm K)) i j,
  S_emb_of k0 kadd kmul ps i j = total k0 kadd kmul ps i j.
Proof.
  intros ps i j. unfold S_emb_of, total.
  rewrite (fold_madd_entry Kring (fun p => mscale kmul (t_lam p) (t_Semb p))).
  unfold mzero, mscale. rewrite (Radd_0_l Kring). apply PenProofs2.lsum_ext.
  intros p _. apply (Rmul_comm Kring).
Qed.

(** ** C03 *)

(** The penalty of the coefficients is the sum of squared m-th differences ... *)
Theorem C03_sum_of_squared_differences : forall n m b,
  quad k0 kadd kmul n (fst (fst (difference_penalty k0 k1 kadd kmul ksub n m))) b
  = nsum k0 kadd (n - m) (fun l => kmul (deltas ksub m b l) (deltas ksub m b l)).
Proof. exact (difference_quad K k0 k1 kadd kmul ksub kopp Kring). Qed.

(** ... the matrix is symmetric and D D^T for the returned root. *)
Theorem C03_symmetric_root : forall n m i j,
  let S := fst (fst (difference_penalty k0 k1 kadd kmul ksub n m)) in
  let D := snd (fst (difference_penalty k0 k1 kadd kmul ksub n m)) in
  S i j = S j i /\ S i j = nsum k0 kadd (n - m) (fun l => kmul (D i l) (D j l)).
Proof.
  intros n m i j. split; [exact (difference_sym K k0 k1 kadd kmul ksub kopp Kring n m i j)|].
  simpl. unfold mul_tr. apply (ksum_nsum K k0 k1 kadd kmul ksub kopp Kring).
Qed.

(** ** C04 *)

(** The penalty of marginal number |ks1|, in a tensor smooth with marginal sizes
    ks1 ++ kj :: ks2, is the sum of the marginal penalty over all slices. *)
Theorem C04_tensor_penalty_slices : forall ks1 kj ks2 (Sj S : mat K) beta,
  Forall (lt 0) (ks1 ++ kj :: ks2) ->
  tp_pen k0 k1 kmul Sj (length ks1) (ks1 ++ kj :: ks2) = Some S ->
  quad k0 kadd kmul (lprod ks1 * kj * lprod ks2) S beta
  = nsum k0 kadd (lprod ks1) (fun a => nsum k0 kadd (lprod ks2) (fun b =>
      quad k0 kadd kmul kj Sj (fun u => beta ((a * kj + u) * lprod ks2 + b)))).
Proof. exact (tp_pen_quad K k0 k1 kadd kmul ksub kopp Kring). Qed.

(** The columns of the tensor model matrix come in the same order: the coefficient with
    marginal indices [is] is number [flat 0 ks is] and its basis function is the product of
    the marginal basis functions ... *)
Theorem C04_basis_order : forall (ms : list ((nat -> nat -> K) * nat)) is X r,
  Forall2 lt is (map snd ms) -> tp_basis kmul ms = Some X ->
  X r (flat 0 (map snd ms) is) = basis_prod k1 kmul r ms is.
Proof. exact (tp_basis_entry K k0 k1 kadd kmul ksub kopp Kring). Qed.

End Generic.

(** ... and [flat] is the number used by the slices: digit [u] of marginal |ks1| between the
    digits [a] before and [b] behind it. *)
Theorem C04_slice_numbers : forall ks1 kj ks2 is1 u is2,
  length is1 = length ks1 -> length is2 = length ks2 ->
  flat 0 (ks1 ++ kj :: ks2) (is1 ++ u :: is2)
  = (flat 0 ks1 is1 * kj + u) * lprod ks2 + flat 0 ks2 is2.
Proof.
  assert (G2 : forall ks is acc, length is = length ks ->
     flat acc ks is = acc * lprod ks + flat 0 ks is).
  { induction ks as [|k ks IH]; intros is acc H; destruct is as [|i is]; try discriminate; simpl.
    - lia.
    - rewrite IH by (simpl in H; lia). rewrite (IH is i) by (simpl in H; lia). fold (lprod ks). lia. }
  assert (G1 : forall ks1 is1 acc r1 r2, length is1 = length ks1 ->
     flat acc (ks1 ++ r1) (is1 ++ r2) = flat (flat acc ks1 is1) r1 r2).
  { induction ks1 as [|k ks1 IH]; intros is1 acc r1 r2 H; destruct is1 as [|i is1]; try discriminate; simpl.
    - reflexivity.
    - apply IH. simpl in H. lia. }
  intros ks1 kj ks2 is1 u is2 H1 H2. rewrite G1 by assumption. simpl. now apply G2.
Qed.

Print Assumptions C01_merge_defined.
Print Assumptions C01_merge_total.
Print Assumptions C01_split_merge.
Print Assumptions C01_split_total.
Print Assumptions C01_split_order.
Print Assumptions C02_embedding_defined.
Print Assumptions C02_embedding.
Print Assumptions C02_quadratic_form.
Print Assumptions C02_embed_formula.
Print Assumptions C02_weighted_sum.
Print Assumptions C03_sum_of_squared_differences.
Print Assumptions C03_symmetric_root.
Print Assumptions C04_tensor_penalty_slices.
Print Assumptions C04_basis_order.
Print Assumptions C04_slice_numbers.

(** ** Concrete cases over the integers *)

Definition Zring : ring_theory 0%Z 1%Z Z.add Z.mul Z.sub Z.opp (@eq Z) := Zth.

(** A diagonal penalty block with entries [ds] placed at coefficient [s]. *)
Definition diag_block (ds : list Z) : nat -> nat -> Z :=
  fun i j => if i =? j then nth i ds 0%Z else 0%Z.
Definition ex_pen (ds : list Z) (s : nat) (lam : Z) (id : option nat) (tm : nat) : lterm Z :=
  mkTerm (diag_block ds) (length ds)
    (block_at 0%Z s (length ds) (diag_block ds)) (block_at 0%Z s (length ds) (diag_block ds))
    1 lam s false DIFFERENCE (length ds) [tm] None [0] id None.

(** Two penalties sharing id 7 with a third one between them, and a fourth one without id on
    the same coefficients as the first. *)
Definition ex_list : list (lterm Z) :=
  [ex_pen [1; 0]%Z 1 3 (Some 7) 0; ex_pen [0; 2]%Z 1 4 None 0;
   ex_pen [5]%Z 3 6 None 1; ex_pen [1; 1]%Z 4 3 (Some 7) 2].

Lemma ex_count_one k : id_count k ex_list = if k =? 7 then 2 else 0.
Proof.
  unfold ex_list, id_count. cbn [map count_occ ex_pen t_id].
  destruct (optnat_eq_dec (Some 7) (Some k)) as [E|E]; destruct (optnat_eq_dec None (Some k)); try discriminate.
  - inversion E; subst. reflexivity.
  - destruct (Nat.eqb_spec k 7); [subst; congruence|reflexivity].
Qed.

Lemma ex_list_good : good ex_list.
Proof.
  repeat split.
  - intros p q Hp Hq. simpl in Hp, Hq.
    repeat destruct Hp as [<-|Hp]; try contradiction; repeat destruct Hq as [<-|Hq]; try contradiction;
      simpl; congruence.
  - intros k. rewrite ex_count_one. destruct (k =? 7); lia.
  - simpl in H. repeat destruct H as [<-|H]; try contradiction; reflexivity.
  - simpl in H. repeat destruct H as [<-|H]; try contradiction; eexists; reflexivity.
  - simpl in H. repeat destruct H as [<-|H]; try contradiction; eexists; reflexivity.
  - simpl in H. repeat destruct H as [<-|H]; try contradiction; reflexivity.
  - simpl in H. repeat destruct H as [<-|H]; try contradiction; reflexivity.
  - repeat constructor; unfold start_le; simpl; lia.
Qed.

(** The hypotheses of the C01 theorems hold for [ex_list]; merging shortens it and splitting
    restores it. *)
Example C01_case :
  good ex_list /\
  (exists r, combine_shared_penalties Z.add ex_list = Some r /\ length r = 3 /\
     map (@t_start Z) (split_shared_penalties r) = [1; 1; 3; 4] /\
     total 0%Z Z.add Z.mul r 5 5 = 3%Z /\ total 0%Z Z.add Z.mul ex_list 1 1 = 3%Z).
Proof.
  split; [exact ex_list_good|]. eexists. split; [reflexivity|]. vm_compute. repeat split.
Qed.

(** C01 fails if one id is shared and another id is used once: the penalty with the single id
    is counted twice. *)
Theorem C01_single_id_refuted : exists (ps r : list (lterm Z)) i,
  same_lam ps /\ (forall p, In p ps -> plain p /\ default_flags p) /\ Sorted (@start_le Z) ps /\
  combine_shared_penalties Z.add ps = Some r /\
  total 0%Z Z.add Z.mul r i i <> total 0%Z Z.add Z.mul ps i i.
Proof.
  exists [ex_pen [1]%Z 0 2 (Some 1) 0; ex_pen [1]%Z 1 2 (Some 1) 1; ex_pen [1]%Z 2 5 (Some 2) 2].
  eexists. exists 2. repeat split.
  - intros p q Hp Hq. simpl in Hp, Hq.
    repeat destruct Hp as [<-|Hp]; try contradiction; repeat destruct Hq as [<-|Hq]; try contradiction;
      simpl; congruence.
  - simpl in H. repeat destruct H as [<-|H]; try contradiction; reflexivity.
  - simpl in H. repeat destruct H as [<-|H]; try contradiction; eexists; reflexivity.
  - simpl in H. repeat destruct H as [<-|H]; try contradiction; eexists; reflexivity.
  - simpl in H. repeat destruct H as [<-|H]; try contradiction; reflexivity.
  - simpl in H. repeat destruct H as [<-|H]; try contradiction; reflexivity.
  - repeat constructor; unfold start_le; simpl; lia.
  - vm_compute. discriminate.
Qed.
Print Assumptions C01_single_id_refuted.

(** C01 fails for frozen penalties that share an id: after merging and splitting they are not
    frozen any more. *)
Definition frozen_pen (s : nat) : lterm Z :=
  mkTerm (diag_block [1%Z]) 1 (block_at 0%Z s 1 (diag_block [1%Z])) (block_at 0%Z s 1 (diag_block [1%Z]))
    1 2%Z s true CUSTOM 1 [s] None [0] (Some 1) None.
Theorem C01_frozen_refuted : exists ps r : list (lterm Z),
  same_lam ps /\ no_single_id ps /\ (forall p, In p ps -> plain p) /\
  combine_shared_penalties Z.add ps = Some r /\
  (forall p, In p ps -> t_frozen p = true) /\
  (exists q, In q (split_shared_penalties r) /\ t_frozen q = false) /\
  (exists q, In q r /\ t_frozen q = false).
Proof.
  exists [frozen_pen 0; frozen_pen 1]. eexists.
  split; [|split; [|split; [|split; [reflexivity|]]]].
  - intros p q Hp Hq. simpl in Hp, Hq.
    repeat destruct Hp as [<-|Hp]; try contradiction; repeat destruct Hq as [<-|Hq]; try contradiction;
      simpl; congruence.
  - intros k. unfold id_count. cbn [map count_occ frozen_pen t_id].
    destruct (optnat_eq_dec (Some 1) (Some k)); lia.
  - intros p Hp. simpl in Hp.
    repeat destruct Hp as [<-|Hp]; try contradiction; repeat split; eexists; reflexivity.
  - repeat split.
    + intros p Hp. simpl in Hp. repeat destruct Hp as [<-|Hp]; try contradiction; reflexivity.
    + eexists. split; [vm_compute; left; reflexivity|reflexivity].
    + eexists. split; [vm_compute; left; reflexivity|reflexivity].
Qed.
Print Assumptions C01_frozen_refuted.

(** Three repetitions of a 2 x 2 block from coefficient 1 on. *)
Example C02_case :
  let ts := [(1%Z, 0, 0); ((-1)%Z, 0, 1); ((-1)%Z, 1, 0); (1%Z, 1, 1)] : triplets Z in
  in_shape 2 ts = true /\
  (exists SJ Semb idx rep, build_by_id_penalty 0%Z Z.add ts 2 3 8 1 = Some (SJ, Semb, idx, rep) /\
    Semb 3 4 = (-1)%Z /\ Semb 2 3 = 0%Z /\ Semb 6 6 = 1%Z /\ Semb 7 7 = 0%Z /\ Semb 0 0 = 0%Z /\
    idx = 7 /\ rep = 3).
Proof.
  cbv zeta. split; [reflexivity|].
  do 4 eexists. split; [reflexivity|]. repeat split.
Qed.

Example C02_formula_case :
  let p := ex_pen [4; 5]%Z 1 2 None 0 in
  let q := embed_one 0%Z [2; 3; 4] (Some 1) 1 p in
  t_start q = 3 /\ t_Semb q 3 3 = 4%Z /\ t_Semb q 4 4 = 5%Z /\ t_Semb q 1 1 = 0%Z /\
  (forall i j, (3 <= i \/ 3 <= j) -> t_Semb p i j = 0%Z).
Proof.
  repeat split. intros i j H. simpl. unfold block_at.
  destruct (Nat.ltb_spec i (1 + 2)); [|now rewrite andb_false_r].
  destruct (Nat.ltb_spec j (1 + 2)); [lia|now rewrite andb_false_r].
Qed.

(** Second differences of 1, 4, 9, 17: 2 and 3. *)
Example C03_case :
  let b := fun i => nth i [1; 4; 9; 17]%Z 0%Z in
  quad 0%Z Z.add Z.mul 4 (fst (fst (difference_penalty 0%Z 1%Z Z.add Z.mul Z.sub 4 2))) b = 13%Z.
Proof. reflexivity. Qed.

(** C03 over the reals: the penalty is never negative and vanishes exactly for polynomials of
    degree less than m in the coefficient index. *)
Theorem C03_null_space : forall n m b, (m <= n)%nat ->
  (0 <= quad 0 Rplus Rmult n (fst (fst (difference_penalty 0 1 Rplus Rmult Rminus n m))) b)%R /\
  (quad 0%R Rplus Rmult n (fst (fst (difference_penalty 0%R 1%R Rplus Rmult Rminus n m))) b = 0%R
   <-> is_poly n m b).
Proof.
  intros n m b Hmn. rewrite (C03_sum_of_squared_differences R 0%R 1%R Rplus Rmult Rminus Ropp RR).
  split.
  - apply rsum_nonneg. intros i _. apply Rle_0_sqr.
  - rewrite <- is_poly_iff by assumption. split.
    + intros E l Hl.
      assert (H : (deltas Rminus m b l * deltas Rminus m b l)%R = 0%R).
      { apply (rsum_nonneg_zero (n - m) (fun l => (deltas Rminus m b l * deltas Rminus m b l)%R));
          [intros i _; apply Rle_0_sqr|exact E|assumption]. }
      nra.
    + intros H. rewrite (rsum_ext (n - m) _ (fun _ => 0%R)); [apply rsum_zero|].
      intros i Hi. rewrite H by assumption. ring.
Qed.
Print Assumptions C03_null_space.

(** The returned rank r leaves an unpenalised space of dimension n - r: its members are free
    in their first n - r values and determined by them. *)
Theorem C03_rank : forall n m (v : nat -> R), (m <= n)%nat ->
  let '(Sm, _, r) := difference_penalty 0%R 1%R Rplus Rmult Rminus n m in
  (r <= n)%nat /\
  exists b, (forall i, (i < n - r)%nat -> b i = v i) /\ quad 0%R Rplus Rmult n Sm b = 0%R /\
    forall b', (forall i, (i < n - r)%nat -> b' i = v i) -> quad 0%R Rplus Rmult n Sm b' = 0%R ->
      forall i, (i < n)%nat -> b' i = b i.
Proof.
  intros n m v Hmn.
  assert (Hq : forall b, quad 0%R Rplus Rmult n
      (fst (fst (difference_penalty 0%R 1%R Rplus Rmult Rminus n m))) b = 0%R
      <-> forall l, (l < n - m)%nat -> deltas Rminus m b l = 0%R).
  { intros b. rewrite is_poly_iff by assumption. apply C03_null_space; assumption. }
  assert (E : difference_penalty 0%R 1%R Rplus Rmult Rminus n m
     = (fst (fst (difference_penalty 0%R 1%R Rplus Rmult Rminus n m)),
        diff_D 0%R 1%R Rminus m, n - m)) by reflexivity.
  rewrite E. clear E. split; [lia|].
  replace (n - (n - m)) with m by lia.
  destruct (deltas_extend m v n) as [b [Hb Hz]]. exists b. split; [assumption|]. split.
  - apply Hq. intros l Hl. apply Hz. lia.
  - intros b' Hb' Hz' i Hi. apply (deltas_unique m n b' b).
    + intros j Hj. rewrite Hb, Hb' by assumption. reflexivity.
    + now apply Hq.
    + intros l Hl. apply Hz. lia.
    + assumption.
Qed.
Print Assumptions C03_rank.

(** A straight line is not penalised by second differences; a parabola is. *)
Example C03_null_case :
  is_poly 5 2 (fun i => 3 + 2 * INR i)%R /\ ~ is_poly 5 2 (fun i => (INR i) * (INR i))%R.
Proof.
  split.
  - exists (fun k => match k with O => 3%R | _ => 2%R end). intros i _. unfold nsum. simpl. ring.
  - intros [a Ha]. pose proof (Ha 0 ltac:(lia)) as H0. pose proof (Ha 1 ltac:(lia)) as H1.
    pose proof (Ha 2 ltac:(lia)) as H2. unfold nsum in *. simpl in *. lra.
Qed.

(** A 2 x 2 x 3 tensor, penalty on the middle marginal. *)
Example C04_case :
  exists S, tp_pen 0%Z 1%Z Z.mul (fun i j => if i =? j then 1%Z else (-1)%Z) 1 [2; 2; 3] = Some S /\
  S 0 3 = (-1)%Z /\ S 0 1 = 0%Z /\ S 11 11 = 1%Z /\ S 2 5 = (-1)%Z /\
  flat 0 [2; 2; 3] [1; 0; 2] = 8.
Proof. eexists. split; [reflexivity|]. vm_compute. repeat split. Qed.

(** ** C05 *)

(** For penalties without unpenalised coefficients between them the generalised inverse has,
    for every group of at least two penalties, the pseudo-inverse of the group's summed block
    at exactly the group's coefficients, and zeros everywhere else. *)
Theorem C05_gapless : forall (K : Type) (k0 k1 : K) (kadd kmul ksub : K -> K -> K) (kopp : K -> K),
  ring_theory k0 k1 kadd kmul ksub kopp (@eq K) ->
  forall (pinv : nat -> mat K -> mat K) (ps ms : list (lterm K)) Semb Sinv flags,
  (forall n A B, (forall i j, A i j = B i j) -> forall i j, pinv n A i j = pinv n B i j) ->
  good ps -> laid_out ps -> gapless ps -> (forall p, In p ps -> 0 < t_dim p * t_rep p) ->
  combine_shared_penalties kadd ps = Some ms ->
  compute_S_emb_pinv_det k0 kadd kmul pinv ms = Some (Semb, Sinv, flags) ->
  (forall i j, Semb i j = lsum k0 kadd (fun p => kmul (t_Semb p i j) (t_lam p)) ps) /\
  (forall p i j, In p ps -> ~ alone ps p -> t_start p <= i < pen_end p -> t_start p <= j < pen_end p ->
     Sinv i j = blockdiag k0 (t_start p) (t_dim p) (t_rep p)
                  (pinv (t_dim p) (block_sum k0 kadd kmul (t_start p) ps)) i j) /\
  (forall i j, (forall p, In p ps -> ~ alone ps p ->
        ~ (t_start p <= i < pen_end p /\ t_start p <= j < pen_end p)) -> Sinv i j = k0).
Proof. exact pinv_blocks. Qed.
Print Assumptions C05_gapless.

(** A sorted list in which shared penalties act alone and two others share coefficients. *)
Definition ex_list2 : list (lterm Z) :=
  [ex_pen [1; 0]%Z 1 3 (Some 7) 0; ex_pen [0; 2]%Z 3 4 None 1;
   ex_pen [5; 1]%Z 3 6 None 1; ex_pen [1; 1]%Z 5 3 (Some 7) 2; ex_pen [1]%Z 7 3 None 3].
Lemma ex_list2_good : good ex_list2.
Proof.
  repeat split.
  - intros p q Hp Hq. simpl in Hp, Hq.
      repeat destruct Hp as [<-|Hp]; try contradiction; repeat destruct Hq as [<-|Hq]; try contradiction;
        simpl; congruence.
  - intros k. unfold ex_list2, id_count. cbn [map count_occ ex_pen t_id].
      destruct (optnat_eq_dec (Some 7) (Some k)), (optnat_eq_dec None (Some k)); try discriminate; lia.
  - simpl in H. repeat destruct H as [<-|H]; try contradiction; reflexivity.
  - simpl in H. repeat destruct H as [<-|H]; try contradiction; eexists; reflexivity.
  - simpl in H. repeat destruct H as [<-|H]; try contradiction; eexists; reflexivity.
  - simpl in H. repeat destruct H as [<-|H]; try contradiction; reflexivity.
  - simpl in H. repeat destruct H as [<-|H]; try contradiction; reflexivity.
  - repeat constructor; unfold start_le; simpl; lia.
Qed.

(** The list is gapless; the second and third penalty act on coefficients 3 and 4. *)
Example C05_case :
  good ex_list2 /\ laid_out ex_list2 /\ gapless ex_list2 /\
  exists ms S P fl, combine_shared_penalties Z.add ex_list2 = Some ms /\
    compute_S_emb_pinv_det 0%Z Z.add Z.mul (fun _ A => A) ms = Some (S, P, fl) /\
    P 3 3 = 30%Z /\ P 4 4 = 14%Z /\ P 1 1 = 0%Z /\ P 5 5 = 0%Z /\
    ~ alone ex_list2 (ex_pen [0; 2]%Z 3 4 None 1).
Proof.
  split; [exact ex_list2_good|]. split; [|split].
  - intros p q Hp Hq. simpl in Hp, Hq.
    repeat destruct Hp as [<-|Hp]; try contradiction; repeat destruct Hq as [<-|Hq]; try contradiction;
      simpl; unfold pen_end; simpl; lia.
  - intros p q Hp Hq. simpl in Hp, Hq.
    repeat destruct Hp as [<-|Hp]; try contradiction; repeat destruct Hq as [<-|Hq]; try contradiction;
      intros Hlt; simpl in Hlt; try lia;
      solve [ exists (ex_pen [0; 2]%Z 3 4 None 1); split; [simpl; tauto|reflexivity]
            | exists (ex_pen [1; 1]%Z 5 3 (Some 7) 2); split; [simpl; tauto|reflexivity]
            | exists (ex_pen [1]%Z 7 3 None 3); split; [simpl; tauto|reflexivity] ].
  - do 4 eexists. split; [reflexivity|]. split; [reflexivity|].
    repeat split. unfold alone. simpl. discriminate.
Qed.

(** C05 fails if unpenalised coefficients lie between penalised ones.  Two formulas, each with
    an intercept and a term of two coefficients that has two penalties; the penalties are
    embedded by the code itself.  The block of the second term lands one coefficient too early:
    at the second intercept. *)
Definition gap_list : list (lterm Z) :=
  concat (embed_shared_penalties 0%Z
    [[ex_pen [1; 0]%Z 1 1 None 0; ex_pen [0; 1]%Z 1 1 None 0];
     [ex_pen [1; 0]%Z 1 1 None 0; ex_pen [0; 1]%Z 1 1 None 0]] [3; 3] None).
Theorem C05_gap_refuted : exists S P fl,
  good gap_list /\ laid_out gap_list /\
  compute_S_emb_pinv_det 0%Z Z.add Z.mul (fun _ A => A) gap_list = Some (S, P, fl) /\
  map (@t_start Z) gap_list = [1; 1; 4; 4] /\
  (* the summed penalty is the identity on coefficients 1, 2, 4, 5 and its own inverse *)
  (forall i, In i [1; 2; 4; 5] -> S i i = 1%Z) /\ S 3 3 = 0%Z /\
  (* the computed inverse misses coefficient 5 and has an entry for the intercept 3 *)
  P 3 3 = 1%Z /\ P 5 5 = 0%Z /\
  (* so the trace for the last penalty is 0 instead of 1 *)
  (exists p, In p gap_list /\ t_Semb p 5 5 = 1%Z /\
     nsum 0%Z Z.add 6 (fun i => nsum 0%Z Z.add 6 (fun j => P i j * t_Semb p j i))%Z = 0%Z).
Proof.
  do 3 eexists. split; [|split; [|split; [reflexivity|]]].
  - unfold gap_list. simpl. repeat split.
    + intros p q Hp Hq. simpl in Hp, Hq.
      repeat destruct Hp as [<-|Hp]; try contradiction; simpl; congruence.
    + intros k. unfold id_count. cbn [map count_occ t_id set_emb set_dist embed_other ex_pen fst snd].
      destruct (optnat_eq_dec None (Some k)); [discriminate|]. cbn. lia.
    + simpl in H. repeat destruct H as [<-|H]; try contradiction; reflexivity.
    + simpl in H. repeat destruct H as [<-|H]; try contradiction; eexists; reflexivity.
    + simpl in H. repeat destruct H as [<-|H]; try contradiction; eexists; reflexivity.
    + simpl in H. repeat destruct H as [<-|H]; try contradiction; reflexivity.
    + simpl in H. repeat destruct H as [<-|H]; try contradiction; reflexivity.
    + repeat constructor; unfold start_le; simpl; lia.
  - intros p q Hp Hq. simpl in Hp, Hq.
    repeat destruct Hp as [<-|Hp]; try contradiction; repeat destruct Hq as [<-|Hq]; try contradiction;
      simpl; unfold pen_end; simpl; lia.
  - split; [reflexivity|]. split; [|split; [reflexivity|split; [reflexivity|split; [reflexivity|]]]].
    + intros i Hi. simpl in Hi. repeat destruct Hi as [<-|Hi]; try contradiction; reflexivity.
    + eexists. split; [simpl; right; right; right; left; reflexivity|]. split; reflexivity.
Qed.
Print Assumptions C05_gap_refuted.

(** ** C06 *)

(** The flags have one entry per smoothing parameter, in order, and are true exactly for
    penalties that are alone on their coefficients. *)
Theorem C06_rank_flags : forall (K : Type) (k0 k1 : K) (kadd kmul ksub : K -> K -> K) (kopp : K -> K),
  ring_theory k0 k1 kadd kmul ksub kopp (@eq K) ->
  forall (pinv : nat -> mat K -> mat K) (ps ms : list (lterm K)) Semb Sinv flags,
  good ps -> combine_shared_penalties kadd ps = Some ms ->
  compute_S_emb_pinv_det k0 kadd kmul pinv ms = Some (Semb, Sinv, flags) ->
  Forall2 (fun m fl => match t_id m with
                       | Some k => forall p, In p (with_id k ps) -> (fl = true <-> alone ps p)
                       | None => fl = true <-> alone ps m end) ms flags.
Proof. exact rank_flags_aligned. Qed.
Print Assumptions C06_rank_flags.

Example C06_case :
  good ex_list2 /\
  exists ms S P, combine_shared_penalties Z.add ex_list2 = Some ms /\
    compute_S_emb_pinv_det 0%Z Z.add Z.mul (fun _ A => A) ms
    = Some (S, P, [false; false; true; true]).
Proof. split; [exact ex_list2_good|]. do 3 eexists. split; reflexivity. Qed.

(** C06 fails for a list with an id used by a single penalty (next to a shared id): there is
    one flag less than there are penalties. *)
Theorem C06_single_id_refuted : exists (ps ms : list (lterm Z)) S P fl,
  same_lam ps /\ Sorted (@start_le Z) ps /\
  combine_shared_penalties Z.add ps = Some ms /\
  compute_S_emb_pinv_det 0%Z Z.add Z.mul (fun _ A => A) ms = Some (S, P, fl) /\
  length fl < length ms.
Proof.
  exists [ex_pen [1]%Z 0 2 (Some 1) 0; ex_pen [1]%Z 1 2 (Some 1) 1; ex_pen [1]%Z 2 5 (Some 2) 2].
  do 4 eexists. split; [|split; [|split; [reflexivity|split; [reflexivity|]]]].
  - intros p q Hp Hq. simpl in Hp, Hq.
    repeat destruct Hp as [<-|Hp]; try contradiction; repeat destruct Hq as [<-|Hq]; try contradiction;
      simpl; congruence.
  - repeat constructor; unfold start_le; simpl; lia.
  - vm_compute. lia.
Qed.
Print Assumptions C06_single_id_refuted.

(** ** C57 *)

(** The total degrees of freedom are the number of columns minus all shares, and equal the sum
    of the terms' degrees of freedom plus the number of unpenalised coefficients. *)
Theorem C57_edf_adds_up : forall (K : Type) (k0 k1 : K) (kadd kmul ksub : K -> K -> K) (kopp : K -> K),
  ring_theory k0 k1 kadd kmul ksub kopp (@eq K) ->
  forall (ps ms : list (lterm K)) B colsX n total pp Bs tedf,
  good ps -> laid_out ps -> (forall p, In p ps -> pen_end p <= n) ->
  combine_shared_penalties kadd ps = Some ms ->
  calculate_edf k0 kadd kmul ksub B colsX ms = (total, pp, Bs) ->
  calculate_term_edf k0 k1 kadd ksub ms pp = Some tedf ->
  total = ksub colsX (lsum k0 kadd (fun p => kmul (t_lam p) (B p)) ps) /\
  total = kadd (lsum k0 kadd (fun e => e) tedf) (ksub colsX (kof k0 k1 kadd (n_covered n ps))).
Proof. exact edf_adds_up. Qed.
Print Assumptions C57_edf_adds_up.

Example C57_case :
  exists ms total pp Bs tedf,
    combine_shared_penalties Z.add ex_list = Some ms /\
    calculate_edf 0%Z Z.add Z.mul Z.sub (fun p => Z.of_nat (t_start p)) 7%Z ms = (total, pp, Bs) /\
    calculate_term_edf 0%Z 1%Z Z.add Z.sub ms pp = Some tedf /\
    total = (-30)%Z /\ tedf = [-5; -17; -10]%Z /\ n_covered 6 ex_list = 5.
Proof. do 5 eexists. split; [reflexivity|]. split; [reflexivity|]. repeat split. Qed.

(** ** C63 *)

(** The trace terms returned with the degrees of freedom line up with the smoothing
    parameters: for a shared one the sum over the penalties that share it. *)
Theorem C63_trace_terms_aligned : forall (K : Type) (k0 k1 : K) (kadd kmul ksub : K -> K -> K) (kopp : K -> K),
  ring_theory k0 k1 kadd kmul ksub kopp (@eq K) ->
  forall (ps ms : list (lterm K)) B colsX,
  good ps -> combine_shared_penalties kadd ps = Some ms ->
  Forall2 (fun m b => match t_id m with
                      | Some k => if 1 <? length (with_id k ps)
                                  then b = lsum k0 kadd B (with_id k ps) else In m ps /\ b = B m
                      | None => In m ps /\ b = B m end)
    ms (snd (calculate_edf k0 kadd kmul ksub B colsX ms)).
Proof. intros. eapply edf_Bs_aligned; eauto. Qed.
Print Assumptions C63_trace_terms_aligned.

Example C63_case :
  exists ms, combine_shared_penalties Z.add ex_list2 = Some ms /\
    snd (calculate_edf 0%Z Z.add Z.mul Z.sub (fun p => Z.of_nat (10 * t_start p)) 7%Z ms)
    = [30; 30; 70; 60]%Z.
Proof. eexists. split; reflexivity. Qed.

(** C63 fails for the order in which the formula code lists the penalties of a by-factor smooth
    with several penalties (first all penalties of level 1, then all of level 2 would be sorted;
    the code lists penalty 1 of every level, then penalty 2 of every level) if two other terms
    share an id: splitting sorts, the smoothing parameters stay in the original order, and the
    trace of one penalty is handed to another. *)
Theorem C63_unsorted_refuted : exists (ps ms : list (lterm Z)) B,
  same_lam ps /\ no_single_id ps /\ (forall p, In p ps -> plain p /\ default_flags p) /\
  map (@t_start Z) ps = [0; 2; 0; 2; 4; 6] /\
  combine_shared_penalties Z.add ps = Some ms /\
  exists k m b, nth_error ms k = Some m /\
    nth_error (snd (calculate_edf 0%Z Z.add Z.mul Z.sub B 8%Z ms)) k = Some b /\
    t_id m = None /\ b <> B m.
Proof.
  exists [ex_pen [1; 1]%Z 0 2 None 0; ex_pen [1; 1]%Z 2 2 None 0;
          ex_pen [1; 0]%Z 0 2 None 0; ex_pen [1; 0]%Z 2 2 None 0;
          ex_pen [1; 1]%Z 4 2 (Some 1) 1; ex_pen [1; 1]%Z 6 2 (Some 1) 2].
  eexists. exists (fun p => Z.of_nat (t_start p)).
  split; [|split; [|split; [|split; [reflexivity|split; [reflexivity|]]]]].
  - intros p q Hp Hq. simpl in Hp, Hq.
    repeat destruct Hp as [<-|Hp]; try contradiction; repeat destruct Hq as [<-|Hq]; try contradiction;
      simpl; congruence.
  - intros k. unfold id_count. cbn [map count_occ ex_pen t_id].
    destruct (optnat_eq_dec (Some 1) (Some k)), (optnat_eq_dec None (Some k)); try discriminate; lia.
  - intros p Hp. simpl in Hp.
    repeat destruct Hp as [<-|Hp]; try contradiction; repeat split; eexists; reflexivity.
  - exists 1. do 2 eexists. split; [reflexivity|]. split; [reflexivity|]. split; [reflexivity|].
    vm_compute. discriminate.
Qed.
Print Assumptions C63_unsorted_refuted.
