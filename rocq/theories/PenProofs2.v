(** Lemmas about embedding penalty blocks and about tensor product penalties. *)

From Coq Require Import List Arith Bool Lia Permutation Ring ZArith.
From Verif Require Import PenModel PenSpec.
Import ListNotations.


Section Emb.
Variable K : Type.
Variables (k0 k1 : K) (kadd kmul ksub : K -> K -> K) (kopp : K -> K).
Variable Kring : ring_theory k0 k1 kadd kmul ksub kopp (@eq K).
Add Ring Kr : Kring.

Notation csc := (@csc K k0 kadd).
Notation lsum := (@lsum K k0 kadd _).
Notation nsum := (@nsum K k0 kadd).

(** ** Sums *)

Lemma lsum_app (A : Type) (f : A -> K) l1 l2 :
  lsum f (l1 ++ l2) = kadd (lsum f l1) (lsum f l2).
Proof. induction l1; simpl; [ring|]. rewrite IHl1. ring. Qed.

Lemma lsum_ext (A : Type) (f g : A -> K) l :
  (forall x, In x l -> f x = g x) -> lsum f l = lsum g l.
Proof.
  induction l; simpl; intros H; [reflexivity|].
  rewrite (H a) by now left. rewrite IHl; [reflexivity|]. intros; apply H; now right.
Qed.

Lemma lsum_zero (A : Type) (f : A -> K) l : (forall x, In x l -> f x = k0) -> lsum f l = k0.
Proof.
  induction l; simpl; intros H; [reflexivity|].
  rewrite (H a) by now left. rewrite IHl; [ring|]. intros; apply H; now right.
Qed.

Lemma lsum_map (A B : Type) (f : B -> K) (g : A -> B) l :
  lsum f (map g l) = lsum (fun x => f (g x)) l.
Proof. induction l; simpl; congruence. Qed.

Lemma lsum_add (A : Type) (f g : A -> K) l :
  lsum (fun x => kadd (f x) (g x)) l = kadd (lsum f l) (lsum g l).
Proof. induction l; simpl; [ring|]. rewrite IHl. ring. Qed.

Lemma lsum_mul_l (A : Type) c (f : A -> K) l :
  lsum (fun x => kmul c (f x)) l = kmul c (lsum f l).
Proof. induction l; simpl; [ring|]. rewrite IHl. ring. Qed.

Lemma lsum_mul_r (A : Type) c (f : A -> K) l :
  lsum (fun x => kmul (f x) c) l = kmul (lsum f l) c.
Proof. induction l; simpl; [ring|]. rewrite IHl. ring. Qed.

Lemma lsum_swap (A B : Type) (f : A -> B -> K) l1 l2 :
  lsum (fun x => lsum (fun y => f x y) l2) l1 = lsum (fun y => lsum (fun x => f x y) l1) l2.
Proof.
  induction l1; simpl.
  - symmetry. now apply lsum_zero.
  - rewrite IHl1, <- lsum_add. reflexivity.
Qed.

Lemma nsum_ext n f g : (forall i, i < n -> f i = g i) -> nsum n f = nsum n g.
Proof. intros H. apply lsum_ext. intros i Hi. apply in_seq in Hi. apply H. lia. Qed.

Lemma nsum_S n f : nsum (S n) f = kadd (nsum n f) (f n).
Proof. unfold PenSpec.nsum. rewrite seq_S, lsum_app. simpl. ring. Qed.

Lemma nsum_S_l n f : nsum (S n) f = kadd (f 0) (nsum n (fun i => f (S i))).
Proof. unfold PenSpec.nsum. simpl. rewrite <- seq_shift, lsum_map. reflexivity. Qed.

Lemma nsum_zero n f : (forall i, i < n -> f i = k0) -> nsum n f = k0.
Proof. intros H. apply lsum_zero. intros i Hi. apply in_seq in Hi. apply H. lia. Qed.

Lemma nsum_split a b f : nsum (a + b) f = kadd (nsum a f) (nsum b (fun i => f (a + i))).
Proof.
  induction b; simpl.
  - rewrite Nat.add_0_r. unfold PenSpec.nsum at 3. simpl. ring.
  - rewrite Nat.add_succ_r, !nsum_S, IHb. ring.
Qed.

Lemma nsum_prod a b f :
  nsum (a * b) f = nsum a (fun i => nsum b (fun j => f (i * b + j))).
Proof.
  induction a; [reflexivity|].
  rewrite nsum_S, <- IHa. replace (S a * b) with (a * b + b) by lia.
  apply nsum_split.
Qed.

Lemma nsum_delta n r0 x :
  nsum n (fun r => if r =? r0 then x else k0) = if r0 <? n then x else k0.
Proof.
  induction n; [reflexivity|].
  rewrite nsum_S, IHn.
  destruct (Nat.ltb_spec r0 n), (Nat.eqb_spec n r0), (Nat.ltb_spec r0 (S n)); try lia; ring.
Qed.

(** ** csc *)

Lemma csc_app t1 t2 i j : csc (t1 ++ t2) i j = kadd (csc t1 i j) (csc t2 i j).
Proof.
  induction t1 as [|[[v r] c] t1 IH]; simpl; [ring|].
  fold (csc (t1 ++ t2) i j). fold (csc t1 i j).
  destruct ((r =? i) && (c =? j)); rewrite IH; ring.
Qed.

Lemma csc_outside n ts i j : in_shape n ts = true -> (n <= i \/ n <= j) -> csc ts i j = k0.
Proof.
  intros H Hij. induction ts as [|[[v r] c] ts IH]; [reflexivity|].
  simpl in H. apply andb_true_iff in H. destruct H as [H1 H2].
  apply andb_true_iff in H1. destruct H1 as [Hr Hc].
  apply Nat.ltb_lt in Hr, Hc. simpl. fold (csc ts i j).
  destruct (Nat.eqb_spec r i), (Nat.eqb_spec c j); simpl; try (now apply IH); lia.
Qed.

Lemma csc_shift c ts i j :
  csc (shift_triplets c ts) i j = if (c <=? i) && (c <=? j) then csc ts (i - c) (j - c) else k0.
Proof.
  induction ts as [|[[v r] cc] ts IH].
  - simpl. now destruct (_ && _).
  - simpl. fold (csc (shift_triplets c ts) i j). rewrite IH.
    fold (csc ts (i - c) (j - c)).
    destruct (Nat.leb_spec c i), (Nat.leb_spec c j); simpl.
    + destruct (Nat.eqb_spec (r + c) i), (Nat.eqb_spec r (i - c)); try lia; simpl;
      destruct (Nat.eqb_spec (cc + c) j), (Nat.eqb_spec cc (j - c)); try lia; reflexivity.
    + destruct (Nat.eqb_spec (r + c) i), (Nat.eqb_spec (cc + c) j); try lia; reflexivity.
    + destruct (Nat.eqb_spec (r + c) i), (Nat.eqb_spec (cc + c) j); try lia; reflexivity.
    + destruct (Nat.eqb_spec (r + c) i), (Nat.eqb_spec (cc + c) j); try lia; reflexivity.
Qed.

Lemma csc_tile ts d n i j :
  csc (tile_triplets n d ts) i j = nsum n (fun r => csc (shift_triplets (r * d) ts) i j).
Proof.
  unfold tile_triplets. induction n; [reflexivity|].
  rewrite seq_S, flat_map_app, csc_app, IHn, nsum_S. simpl. rewrite app_nil_r. reflexivity.
Qed.

(** One copy of a block: the r-th copy covers the rows and columns with quotient r. *)
Lemma csc_shift_block d ts r i j : in_shape d ts = true -> 0 < d ->
  csc (shift_triplets (r * d) ts) i j
  = if r =? i / d then (if i / d =? j / d then csc ts (i mod d) (j mod d) else k0) else k0.
Proof.
  intros Hs Hd. rewrite csc_shift.
  pose proof (Nat.div_mod i d ltac:(lia)) as Hi.
  pose proof (Nat.div_mod j d ltac:(lia)) as Hj.
  pose proof (Nat.mod_upper_bound i d ltac:(lia)) as Bi.
  pose proof (Nat.mod_upper_bound j d ltac:(lia)) as Bj.
  set (qi := i / d) in *. set (qj := j / d) in *. set (mi := i mod d) in *. set (mj := j mod d) in *.
  destruct (Nat.eqb_spec r qi) as [->|Hr].
  - destruct (Nat.eqb_spec qi qj) as [E|E].
    + rewrite <- E in Hj. destruct (Nat.leb_spec (qi * d) i); [|nia].
      destruct (Nat.leb_spec (qi * d) j); [|nia]. simpl.
      f_equal; nia.
    + destruct (Nat.leb_spec (qi * d) i); [|nia].
      destruct (Nat.leb_spec (qi * d) j); [|reflexivity]. simpl.
      apply csc_outside with (n := d); [assumption|]. right.
      assert (qi < qj) by nia. nia.
  - destruct (Nat.leb_spec (r * d) i); [|reflexivity].
    destruct (Nat.leb_spec (r * d) j); [|reflexivity]. simpl.
    apply csc_outside with (n := d); [assumption|]. left.
    assert (r < qi) by nia. nia.
Qed.

Lemma csc_tile_block d ts n i j : in_shape d ts = true -> 0 < d ->
  csc (tile_triplets n d ts) i j
  = if (i / d <? n) && (i / d =? j / d) then csc ts (i mod d) (j mod d) else k0.
Proof.
  intros Hs Hd. rewrite csc_tile.
  rewrite (nsum_ext n _ (fun r => if r =? i / d then
      (if i / d =? j / d then csc ts (i mod d) (j mod d) else k0) else k0))
    by (intros; now apply csc_shift_block).
  rewrite nsum_delta. now destruct (_ <? _), (_ =? _).
Qed.

Lemma csc_shift_tile c d ts n i j : in_shape d ts = true -> 0 < d ->
  csc (shift_triplets c (tile_triplets n d ts)) i j = blockdiag k0 c d n (csc ts) i j.
Proof.
  intros Hs Hd. rewrite csc_shift. unfold blockdiag.
  destruct (Nat.leb_spec c i); [|reflexivity].
  destruct (Nat.leb_spec c j); [|reflexivity]. simpl.
  rewrite csc_tile_block by assumption.
  pose proof (Nat.div_mod (i - c) d ltac:(lia)) as Hi.
  pose proof (Nat.div_mod (j - c) d ltac:(lia)) as Hj.
  pose proof (Nat.mod_upper_bound (i - c) d ltac:(lia)) as Bi.
  pose proof (Nat.mod_upper_bound (j - c) d ltac:(lia)) as Bj.
  destruct (Nat.eqb_spec ((i - c) / d) ((j - c) / d)) as [E|E]; [|now rewrite !andb_false_r].
  rewrite !andb_true_r.
  destruct (Nat.ltb_spec ((i - c) / d) n), (Nat.ltb_spec i (c + n * d)), (Nat.ltb_spec j (c + n * d));
    simpl; try reflexivity; exfalso; rewrite <- E in Hj; nia.
Qed.

Lemma tile_one d (ts : triplets K) : tile_triplets 1 d ts = ts.
Proof.
  unfold tile_triplets. simpl. rewrite app_nil_r.
  induction ts as [|[[v i] j] ts IH]; simpl; [reflexivity|].
  now rewrite !Nat.add_0_r, IH.
Qed.

Lemma blockdiag_cons c d n B i j : 0 < d ->
  kadd (blockdiag k0 c d 1 B i j) (blockdiag k0 (c + d) d n B i j)
  = blockdiag k0 c d (S n) B i j.
Proof.
  intros Hd. unfold blockdiag.
  destruct (Nat.leb_spec c i); [|destruct (Nat.leb_spec (c + d) i); [lia|]; simpl; ring].
  destruct (Nat.leb_spec c j); [|destruct (Nat.leb_spec (c + d) j); [lia|];
     rewrite ?andb_false_r; simpl; ring].
  simpl. rewrite !Nat.add_0_r.
  destruct (Nat.leb_spec (c + d) i) as [Hi|Hi].
  - assert (Ei : (i - c) / d = S ((i - (c + d)) / d) /\ (i - c) mod d = (i - (c + d)) mod d).
    { replace (i - c) with ((i - (c + d)) + 1 * d) by lia.
      rewrite Nat.div_add, Nat.mod_add by lia. split; [lia|reflexivity]. }
    destruct Ei as [Ei1 Ei2].
    destruct (Nat.ltb_spec i (c + d)); [lia|]. simpl.
    destruct (Nat.leb_spec (c + d) j) as [Hj|Hj]; simpl.
    + assert (Ej : (j - c) / d = S ((j - (c + d)) / d) /\ (j - c) mod d = (j - (c + d)) mod d).
      { replace (j - c) with ((j - (c + d)) + 1 * d) by lia.
        rewrite Nat.div_add, Nat.mod_add by lia. split; [lia|reflexivity]. }
      destruct Ej as [Ej1 Ej2]. rewrite Ei1, Ej1, Ei2, Ej2. simpl.
      rewrite <- !Nat.add_assoc. destruct (_ && _ && _); ring.
    + assert (Ej : (j - c) / d = 0) by (apply Nat.div_small; lia).
      rewrite Ei1, Ej. simpl. rewrite andb_false_r. ring.
  - assert (Ei : (i - c) / d = 0) by (apply Nat.div_small; lia).
    destruct (Nat.ltb_spec i (c + d)); [|lia]. simpl.
    destruct (Nat.ltb_spec i (c + (d + n * d))); [|lia]. simpl.
    rewrite Ei. destruct (Nat.leb_spec (c + d) j) as [Hj|Hj].
    + assert (Ej : (j - c) / d <> 0).
      { intro E0. apply Nat.div_small_iff in E0; lia. }
      destruct (Nat.eqb_spec 0 ((j - c) / d)); [congruence|].
      rewrite !andb_false_r. ring.
    + assert (Ej : (j - c) / d = 0) by (apply Nat.div_small; lia).
      rewrite Ej. destruct (Nat.ltb_spec j (c + d)); [|lia].
      destruct (Nat.ltb_spec j (c + (d + n * d))); [|lia]. simpl. ring.
Qed.

Lemma in_shape_shift S n c (ts : triplets K) : in_shape n ts = true -> c + n <= S ->
  in_shape S (shift_triplets c ts) = true.
Proof.
  intros H Hc. unfold in_shape, shift_triplets in *. rewrite forallb_forall in *.
  intros t Ht. apply in_map_iff in Ht. destruct Ht as [[[v r] cc] [<- Hin]].
  specialize (H _ Hin). simpl in H. apply andb_true_iff in H.
  destruct H as [H1 H2]. apply Nat.ltb_lt in H1, H2.
  apply andb_true_iff. split; apply Nat.ltb_lt; lia.
Qed.

Lemma in_shape_tile n d (ts : triplets K) : in_shape d ts = true -> in_shape (n * d) (tile_triplets n d ts) = true.
Proof.
  intros H. unfold in_shape, tile_triplets in *. rewrite forallb_forall in *.
  intros t Ht. apply in_flat_map in Ht. destruct Ht as [r [Hr Ht]].
  apply in_seq in Hr. apply in_map_iff in Ht. destruct Ht as [[[v i] j] [<- Hin]].
  specialize (H _ Hin). simpl in H. apply andb_true_iff in H.
  destruct H as [H1 H2]. apply Nat.ltb_lt in H1, H2.
  apply andb_true_iff. split; apply Nat.ltb_lt; nia.
Qed.

(** The embedded penalty of a by-smooth is defined if it fits and is block diagonal. *)
Lemma build_by_id_defined ts d L col cur :
  in_shape d ts = true -> 0 < L -> cur + L * d <= col ->
  exists SJ Semb idx rep, build_by_id_penalty k0 kadd ts d L col cur = Some (SJ, Semb, idx, rep).
Proof.
  intros Hs HL Hfit. unfold build_by_id_penalty, embed_in_Sj_sparse, embed_in_S_sparse.
  rewrite Hs. rewrite (in_shape_shift col d cur ts Hs) by nia.
  rewrite (in_shape_shift col ((L - 1) * d) (cur + d) _ (in_shape_tile (L - 1) d ts Hs)).
  - eauto.
  - destruct L; [lia|]. simpl. rewrite Nat.sub_0_r. simpl in Hfit. lia.
Qed.

Lemma build_by_id_spec ts d L col cur SJ Semb idx rep :
  in_shape d ts = true -> 0 < d -> 0 < L ->
  build_by_id_penalty k0 kadd ts d L col cur = Some (SJ, Semb, idx, rep) ->
  rep = L /\ idx = cur + L * d /\ (forall i j, SJ i j = csc ts i j) /\
  (forall i j, Semb i j = blockdiag k0 cur d L SJ i j).
Proof.
  intros Hs Hd HL. unfold build_by_id_penalty, embed_in_Sj_sparse, embed_in_S_sparse.
  rewrite Hs. destruct (in_shape col (shift_triplets cur ts)); [|discriminate].
  destruct (in_shape col (shift_triplets (cur + d) _)); [|discriminate].
  intros E. inversion E; subst; clear E.
  split; [lia|]. split; [nia|]. split; [reflexivity|]. intros i j.
  unfold madd. rewrite csc_shift_tile by assumption.
  rewrite <- (tile_one d ts) at 1. rewrite csc_shift_tile by assumption.
  replace (blockdiag k0 cur d L) with (blockdiag k0 cur d (S (L - 1))) by (f_equal; lia).
  now apply blockdiag_cons.
Qed.

(** The quadratic form of a block diagonal matrix. *)
Lemma quad_blockdiag n c d L B b : 0 < d -> c + L * d <= n ->
  quad k0 kadd kmul n (blockdiag k0 c d L B) b
  = nsum L (fun r => quad k0 kadd kmul d B (from (c + r * d) b)).
Proof.
  intros Hd Hn. unfold quad.
  replace n with (c + (L * d + (n - (c + L * d)))) by lia.
  set (R := n - (c + L * d)).
  assert (Hrow : forall i, (i < c \/ c + L * d <= i) -> forall m,
     nsum m (fun j => kmul (kmul (b i) (blockdiag k0 c d L B i j)) (b j)) = k0).
  { intros i Hi m. apply nsum_zero. intros j _. unfold blockdiag.
    destruct Hi.
    - destruct (Nat.leb_spec c i); [lia|]. simpl. ring.
    - destruct (Nat.ltb_spec i (c + L * d)); [lia|].
      rewrite !andb_false_r. simpl. ring. }
  rewrite !nsum_split.
  rewrite (nsum_zero c) by (intros; apply Hrow; lia).
  rewrite (nsum_zero R) by (intros; apply Hrow; lia).
  transitivity (nsum (L * d) (fun i => nsum (L * d) (fun j =>
     kmul (kmul (b (c + i)) (blockdiag k0 c d L B (c + i) (c + j))) (b (c + j))))).
  { assert (E : forall x y, x = y -> kadd k0 (kadd x k0) = y) by (intros; subst; ring).
    apply E. apply nsum_ext. intros i Hi. rewrite !nsum_split.
    rewrite (nsum_zero c).
    2:{ intros j Hj. unfold blockdiag. destruct (Nat.leb_spec c j); [lia|].
        rewrite andb_false_r. simpl. ring. }
    rewrite (nsum_zero R).
    2:{ intros j Hj. unfold blockdiag.
        destruct (Nat.ltb_spec (c + (L * d + j)) (c + L * d)); [lia|].
        rewrite !andb_false_r. simpl. ring. }
    apply E. reflexivity. }
  rewrite nsum_prod. apply nsum_ext. intros r Hr.
  apply nsum_ext. intros i Hi. rewrite nsum_prod.
  transitivity (nsum L (fun r' => if r' =? r then
     nsum d (fun j => kmul (kmul (b (c + (r * d + i))) (B i j)) (b (c + (r * d + j)))) else k0)).
  - apply nsum_ext. intros r' Hr'. destruct (Nat.eqb_spec r' r) as [->|Hne].
    + apply nsum_ext. intros j Hj. do 2 f_equal. unfold blockdiag.
      replace (c + (r * d + i) - c) with (r * d + i) by lia.
      replace (c + (r * d + j) - c) with (r * d + j) by lia.
      rewrite !Nat.div_add_l, !(Nat.div_small i d), !(Nat.div_small j d) by lia.
      rewrite (Nat.add_comm (r * d) i), (Nat.add_comm (r * d) j), !Nat.mod_add, !Nat.mod_small by lia.
      rewrite Nat.eqb_refl.
      destruct (Nat.leb_spec c (c + (i + r * d))); [|lia].
      destruct (Nat.leb_spec c (c + (j + r * d))); [|lia].
      destruct (Nat.ltb_spec (c + (i + r * d)) (c + L * d)); [|nia].
      destruct (Nat.ltb_spec (c + (j + r * d)) (c + L * d)); [|nia].
      reflexivity.
    + apply nsum_zero. intros j Hj. unfold blockdiag.
      replace (c + (r * d + i) - c) with (r * d + i) by lia.
      replace (c + (r' * d + j) - c) with (r' * d + j) by lia.
      rewrite !Nat.div_add_l, !(Nat.div_small i d), !(Nat.div_small j d), !Nat.add_0_r by lia.
      destruct (Nat.eqb_spec r r'); [congruence|]. rewrite !andb_false_r. ring.
  - rewrite nsum_delta. destruct (Nat.ltb_spec r L); [|lia].
    unfold from. apply nsum_ext. intros j Hj. f_equal; [f_equal|]; f_equal; lia.
Qed.

(** ** embed_shared_penalties *)

(** Sum of the coefficient numbers of the first formulas. *)
Definition offset_of (n_coefs : list nat) (fi : nat) : nat :=
  fold_right Nat.add 0 (firstn fi n_coefs).

Lemma pad_before_placed n off sz (A : mat K) i j :
  pad_before k0 n (placed k0 off sz A) i j = placed k0 (n + off) sz A i j.
Proof.
  unfold pad_before, placed.
  destruct (Nat.leb_spec n i), (Nat.leb_spec n j); simpl.
  - destruct (Nat.leb_spec off (i - n)), (Nat.leb_spec (n + off) i); try lia; simpl; try reflexivity.
    destruct (Nat.ltb_spec (i - n) (off + sz)), (Nat.ltb_spec i (n + off + sz)); try lia; simpl; try reflexivity.
    destruct (Nat.leb_spec off (j - n)), (Nat.leb_spec (n + off) j); try lia; simpl; try reflexivity.
    destruct (Nat.ltb_spec (j - n) (off + sz)), (Nat.ltb_spec j (n + off + sz)); try lia; simpl; try reflexivity.
    f_equal; lia.
  - destruct (Nat.leb_spec (n + off) j); [lia|]. now rewrite !andb_false_r.
  - destruct (Nat.leb_spec (n + off) i); [lia|]. reflexivity.
  - destruct (Nat.leb_spec (n + off) i); [lia|]. reflexivity.
Qed.

Lemma pad_after_placed tot off sz (A : mat K) i j : off + sz <= tot ->
  pad_after k0 tot (placed k0 off sz A) i j = placed k0 off sz A i j.
Proof.
  intros H. unfold pad_after, placed.
  destruct (Nat.ltb_spec i tot), (Nat.ltb_spec j tot); simpl; try reflexivity.
  - destruct (Nat.ltb_spec j (off + sz)); [lia|]. now rewrite andb_false_r.
  - destruct (Nat.ltb_spec i (off + sz)); [lia|]. now rewrite andb_false_r.
  - destruct (Nat.ltb_spec i (off + sz)); [lia|]. now rewrite andb_false_r.
Qed.

Lemma pad_before_ext n (A B : mat K) : (forall i j, A i j = B i j) ->
  forall i j, pad_before k0 n A i j = pad_before k0 n B i j.
Proof. intros H i j. unfold pad_before. now rewrite H. Qed.

Lemma pad_after_ext n (A B : mat K) : (forall i j, A i j = B i j) ->
  forall i j, pad_after k0 n A i j = pad_after k0 n B i j.
Proof. intros H i j. unfold pad_after. now rewrite H. Qed.

(** State of the loop over the other formulas: the first [m] formulas are done. *)
Definition emb_inv (p : lterm K) (off sz tot : nat) (q : sized K) : Prop :=
  t_start (fst q) = t_start p + off /\ snd q = tot /\ off + sz <= tot /\
  t_lam (fst q) = t_lam p /\ t_id (fst q) = t_id p /\ t_rep (fst q) = t_rep p /\
  (forall i j, t_S (fst q) i j = t_S p i j) /\ t_dim (fst q) = t_dim p /\
  (forall i j, t_Semb (fst q) i j = placed k0 off sz (t_Semb p) i j) /\
  (forall i j, t_Demb (fst q) i j = placed k0 off sz (t_Demb p) i j).

Lemma embed_loop p fi sz : forall ns m q off tot,
  emb_inv p off sz tot q ->
  emb_inv p (off + fold_right Nat.add 0 (firstn (fi - m) ns)) sz
    (tot + fold_right Nat.add 0 ns - (if (m <=? fi) && (fi <? m + length ns) then nth (fi - m) ns 0 else 0))
    (fold_left (fun acc on => embed_other k0 fi (fst on) (snd on) acc)
        (combine (seq m (length ns)) ns) q).
Proof.
  induction ns as [|n ns IH]; intros m q off tot Hinv.
  - simpl. rewrite firstn_nil. simpl. rewrite Nat.add_0_r.
    destruct (_ && _); [|rewrite Nat.add_0_r, Nat.sub_0_r; exact Hinv].
    destruct (fi - m); simpl; rewrite Nat.add_0_r, Nat.sub_0_r; exact Hinv.
  - cbn [length seq combine fold_left].
    set (q' := embed_other k0 fi (fst (m, n)) (snd (m, n)) q).
    destruct Hinv as (H1 & H2 & H3 & H4 & H5 & H6 & H7 & H8 & H9 & H10).
    destruct q as [t s]. simpl in *. subst s.
    destruct (Nat.lt_trichotomy m fi) as [Hlt|[Heq|Hgt]].
    + assert (Hq : emb_inv p (off + n) sz (tot + n) q').
      { unfold q', embed_other. simpl. destruct (Nat.ltb_spec m fi); [|lia].
        unfold emb_inv. simpl. repeat split; try assumption; try lia.
        - intros i j. rewrite (pad_before_ext n _ _ H9), pad_before_placed. f_equal; lia.
        - intros i j. rewrite (pad_before_ext n _ _ H10), pad_before_placed. f_equal; lia. }
      specialize (IH (S m) q' _ _ Hq).
      replace (fi - m) with (S (fi - S m)) by lia. cbn [firstn fold_right nth].
      replace (off + (n + fold_right Nat.add 0 (firstn (fi - S m) ns)))
        with (off + n + fold_right Nat.add 0 (firstn (fi - S m) ns)) by lia.
      replace (m <=? fi) with true by (symmetry; apply Nat.leb_le; lia).
      replace (S m <=? fi) with true in IH by (symmetry; apply Nat.leb_le; lia).
      replace (m + S (length ns)) with (S m + length ns) by lia.
      replace (tot + (n + fold_right Nat.add 0 ns)) with (tot + n + fold_right Nat.add 0 ns) by lia.
      exact IH.
    + subst m.
      assert (Hq : emb_inv p off sz tot q').
      { unfold q', embed_other. simpl. rewrite Nat.ltb_irrefl.
        unfold emb_inv. simpl. tauto. }
      specialize (IH (S fi) q' _ _ Hq).
      rewrite Nat.sub_diag. cbn [firstn fold_right nth].
      replace (fi <=? fi) with true by (symmetry; apply Nat.leb_le; lia).
      replace (fi <? fi + S (length ns)) with true by (symmetry; apply Nat.ltb_lt; lia).
      replace (S fi <=? fi) with false in IH by (symmetry; apply Nat.leb_gt; lia).
      replace (fi - S fi) with 0 in IH by lia. cbn [firstn fold_right andb] in IH.
      cbn [andb].
      replace (tot + (n + fold_right Nat.add 0 ns) - n) with (tot + fold_right Nat.add 0 ns - 0) by lia.
      exact IH.
    + assert (Hq : emb_inv p off sz (tot + n) q').
      { unfold q', embed_other. simpl. destruct (Nat.ltb_spec m fi); [lia|].
        destruct (Nat.ltb_spec fi m); [|lia].
        unfold emb_inv. simpl. repeat split; try assumption; try lia.
        - intros i j. rewrite (pad_after_ext tot _ _ H9), pad_after_placed by lia. reflexivity.
        - intros i j. rewrite (pad_after_ext tot _ _ H10), pad_after_placed by lia. reflexivity. }
      specialize (IH (S m) q' _ _ Hq).
      replace (fi - m) with 0 by lia. replace (fi - S m) with 0 in IH by lia.
      cbn [firstn fold_right] in *.
      replace (m <=? fi) with false by (symmetry; apply Nat.leb_gt; lia).
      replace (S m <=? fi) with false in IH by (symmetry; apply Nat.leb_gt; lia).
      cbn [andb] in *.
      replace (tot + (n + fold_right Nat.add 0 ns)) with (tot + n + fold_right Nat.add 0 ns) by lia.
      exact IH.
Qed.

(** A penalty of formula [fi] whose matrices live on the formula's own coefficients. *)
Lemma embed_one_spec n_coefs extra fi (p : lterm K) :
  fi < length n_coefs ->
  (forall i j, (nth fi n_coefs 0 <= i \/ nth fi n_coefs 0 <= j) -> t_Semb p i j = k0) ->
  (forall i j, (nth fi n_coefs 0 <= i \/ nth fi n_coefs 0 <= j) -> t_Demb p i j = k0) ->
  let q := embed_one k0 n_coefs extra fi p in
  t_start q = t_start p + offset_of n_coefs fi /\
  t_lam q = t_lam p /\ t_id q = t_id p /\ t_rep q = t_rep p /\ t_dim q = t_dim p /\
  (forall i j, t_S q i j = t_S p i j) /\
  (forall i j, t_Semb q i j = placed k0 (offset_of n_coefs fi) (nth fi n_coefs 0) (t_Semb p) i j) /\
  (forall i j, t_Demb q i j = placed k0 (offset_of n_coefs fi) (nth fi n_coefs 0) (t_Demb p) i j).
Proof.
  intros Hfi HS HD.
  assert (Hinit : emb_inv (set_dist p fi) 0 (nth fi n_coefs 0) (nth fi n_coefs 0)
                    (set_dist p fi, nth fi n_coefs 0)).
  { unfold emb_inv. simpl. repeat split; try lia.
    - intros i j. unfold placed. rewrite !Nat.sub_0_r. simpl.
      destruct (Nat.ltb_spec i (nth fi n_coefs 0)); simpl; [|apply HS; lia].
      destruct (Nat.ltb_spec j (nth fi n_coefs 0)); simpl; [reflexivity|apply HS; lia].
    - intros i j. unfold placed. rewrite !Nat.sub_0_r. simpl.
      destruct (Nat.ltb_spec i (nth fi n_coefs 0)); simpl; [|apply HD; lia].
      destruct (Nat.ltb_spec j (nth fi n_coefs 0)); simpl; [reflexivity|apply HD; lia]. }
  pose proof (embed_loop _ fi _ n_coefs 0 _ _ _ Hinit) as H.
  rewrite Nat.sub_0_r in H. simpl Nat.add in H.
  fold (offset_of n_coefs fi) in H.
  unfold embed_one. set (p2 := fold_left _ _ _) in *.
  destruct H as (H1 & H2 & H3 & H4 & H5 & H6 & H7 & H8 & H9 & H10). simpl in *.
  destruct extra as [e|]; simpl.
  - repeat split; try assumption.
    + intros i j. rewrite (pad_after_ext _ _ _ H9), pad_after_placed; [reflexivity|]. rewrite H2. exact H3.
    + intros i j. rewrite (pad_after_ext _ _ _ H10), pad_after_placed; [reflexivity|]. rewrite H2. exact H3.
  - repeat split; assumption.
Qed.

(** ** Tensor products *)

(** What the loop multiplies for marginal number [i]. *)
Definition tp_factor (j i : nat) (Sj : mat K) : mat K :=
  if j =? i then Sj else identity_mat k0 k1.

Fixpoint tp_factors (j i : nat) (Sj : mat K) (is js : list nat) : K :=
  match is, js with
  | a :: is', b :: js' => kmul (tp_factor j i Sj a b) (tp_factors j (S i) Sj is' js')
  | _, _ => k1
  end.

Lemma kron_entry q (A B : mat K) p1 p2 a b : a < q -> b < q ->
  kron kmul q A B (p1 * q + a) (p2 * q + b) = kmul (A p1 p2) (B a b).
Proof.
  intros Ha Hb. unfold kron.
  rewrite !Nat.div_add_l, !(Nat.div_small a q), !(Nat.div_small b q), !Nat.add_0_r by lia.
  rewrite (Nat.add_comm (p1 * q)), (Nat.add_comm (p2 * q)), !Nat.mod_add, !Nat.mod_small by lia.
  reflexivity.
Qed.

Lemma tp_loop_entry j Sj : forall ks i is js acc p q,
  Forall2 lt is ks -> Forall2 lt js ks ->
  tp_loop k0 k1 kmul j i ks Sj acc (flat p ks is) (flat q ks js)
  = kmul (acc p q) (tp_factors j i Sj is js).
Proof.
  induction ks as [|k ks IH]; intros i is js acc p q Hi Hj.
  - inversion Hi; inversion Hj; subst. simpl. ring.
  - inversion Hi; inversion Hj; subst. simpl.
    rewrite IH by assumption. rewrite kron_entry by assumption.
    unfold tp_factor. ring.
Qed.

Lemma tp_pen_entry j Sj ks is js S : Forall2 lt is ks -> Forall2 lt js ks ->
  tp_pen k0 k1 kmul Sj j ks = Some S ->
  S (flat 0 ks is) (flat 0 ks js) = tp_factors j 0 Sj is js.
Proof.
  intros Hi Hj. destruct ks as [|k ks]; [discriminate|]. simpl. intros E; inversion E; subst; clear E.
  inversion Hi; inversion Hj; subst. simpl.
  rewrite tp_loop_entry by assumption. unfold tp_factor. reflexivity.
Qed.

(** Entries: Sj on the coordinate j, equality on the others. *)
Lemma tp_factors_other j Sj : forall is js i, length is = length js ->
  (forall t, t < length is -> i + t <> j -> nth t is 0 = nth t js 0) ->
  i <= j -> j < i + length is ->
  tp_factors j i Sj is js = Sj (nth (j - i) is 0) (nth (j - i) js 0).
Proof.
  induction is as [|a is IH]; intros js i Hlen Heq Hle Hlt; [simpl in Hlt; lia|].
  destruct js as [|b js]; [discriminate|]. simpl in Hlen. inversion Hlen as [Hlen'].
  cbn [tp_factors]. unfold tp_factor. destruct (Nat.eqb_spec j i) as [->|Hne].
  - rewrite Nat.sub_diag. simpl.
    assert (E : tp_factors i (S i) Sj is js = k1).
    { clear IH Hle Hlt.
      assert (G : forall is js n, i < n -> length is = length js ->
         (forall t, t < length is -> nth t is 0 = nth t js 0) -> tp_factors i n Sj is js = k1).
      { clear - Kring. induction is as [|x is IH]; intros js n Hn Hl He; [destruct js; reflexivity|].
        destruct js as [|y js]; [discriminate|]. cbn [tp_factors]. unfold tp_factor.
        destruct (Nat.eqb_spec i n); [lia|].
        rewrite IH; [|lia|now inversion Hl|].
        - specialize (He 0). simpl in He. rewrite He by lia.
          unfold identity_mat. rewrite Nat.eqb_refl. ring.
        - intros t Ht. specialize (He (S t)). simpl in He. apply He. lia. }
      apply G; [lia|assumption|]. intros t Ht.
      specialize (Heq (S t)). simpl in Heq. apply Heq; lia. }
    rewrite E. ring.
  - replace (j - i) with (S (j - S i)) by lia. cbn [nth].
    rewrite IH; [|assumption| |lia|simpl in Hlt; lia].
    + specialize (Heq 0). simpl in Heq. rewrite Heq by lia.
      unfold identity_mat. rewrite Nat.eqb_refl. ring.
    + intros t Ht Hne'. specialize (Heq (S t)). simpl in Heq. apply Heq; lia.
Qed.

Lemma tp_factors_zero j Sj : forall is js i t, length is = length js ->
  t < length is -> i + t <> j -> nth t is 0 <> nth t js 0 ->
  tp_factors j i Sj is js = k0.
Proof.
  induction is as [|a is IH]; intros js i t Hlen Ht Hj Hne; [simpl in Ht; lia|].
  destruct js as [|b js]; [discriminate|]. cbn [tp_factors].
  destruct t as [|t].
  - simpl in Hne. unfold tp_factor. destruct (Nat.eqb_spec j i); [lia|].
    unfold identity_mat. destruct (Nat.eqb_spec a b); [contradiction|]. ring.
  - rewrite (IH js (S i) t); [ring|now inversion Hlen|simpl in Ht; lia|lia|exact Hne].
Qed.

End Emb.
