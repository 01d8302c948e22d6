(** Theorems about RootModel: C110. *)

From Coq Require Import List Arith Bool Lia Ring ZArith Sorted.
From Verif Require Import PenModel PenSpec PenProps RootModel RootProofs.
Import ListNotations.

(** ** C110: the root of the total penalty *)

(** For penalties without unpenalised coefficients between them the matrix handed to the QR solver is a square
    root of the total penalty: the sum over k of root(i,k) root(j,k) is the lambda-weighted sum of the
    penalties, for any number of terms, of penalties per term, of repetitions and of shared smoothing
    parameters.  [n] is the number of coefficients.  The roots stored with the penalties are roots of
    the penalties and have their columns at the penalty's coefficients; eigh returns a decomposition. *)
Theorem C110_root : forall (K : Type) (k0 k1 : K) (kadd kmul ksub : K -> K -> K) (kopp : K -> K),
  ring_theory k0 k1 kadd kmul ksub kopp (@eq K) ->
  forall (ksqrt : K -> K) (eroot : nat -> mat K -> mat K) (ps ms : list (lterm K)) S_root n,
  good ps -> laid_out ps -> gapless ps -> (forall p, In p ps -> 0 < t_dim p * t_rep p) ->
  (forall p, In p ps -> pen_end p <= n) ->
  (forall p, In p ps -> kmul (ksqrt (t_lam p)) (ksqrt (t_lam p)) = t_lam p) ->
  (forall p i j, In p ps -> t_Semb p i j = blockdiag k0 (t_start p) (t_dim p) (t_rep p) (t_S p) i j) ->
  (forall p i j, In p ps -> nsum k0 kadd n (fun k => kmul (t_Demb p i k) (t_Demb p j k)) = t_Semb p i j) ->
  (forall p i k, In p ps -> ~ (t_start p <= k < pen_end p) -> t_Demb p i k = k0) ->
  (forall m A B, (forall i j, A i j = B i j) -> forall i j, eroot m A i j = eroot m B i j) ->
  (forall p i j, In p ps -> ~ alone ps p -> i < t_dim p -> j < t_dim p ->
     let B := block_sum k0 kadd kmul (t_start p) ps in
     nsum k0 kadd (t_dim p) (fun k => kmul (eroot (t_dim p) B i k) (eroot (t_dim p) B j k)) = B i j) ->
  combine_shared_penalties kadd ps = Some ms ->
  compute_S_root k0 kadd kmul ksqrt eroot ms = Some S_root ->
  forall i j, nsum k0 kadd n (fun k => kmul (S_root i k) (S_root j k)) = total k0 kadd kmul ps i j.
Proof. exact root_square. Qed.
Print Assumptions C110_root.

(** A term with one penalty and a term with two. *)
Definition ex_roots : list (lterm Z) :=
  [ex_pen [1; 1]%Z 1 4 None 0; ex_pen [1; 0]%Z 3 4 None 1; ex_pen [0; 1]%Z 3 9 None 1].
Definition ex_eroot (m : nat) (A : mat Z) : mat Z := fun i j => Z.sqrt (A i j).

Ltac each H := simpl in H; repeat destruct H as [<-|H]; try contradiction.

Lemma ex_good : forall ps, (forall p, In p ps -> exists ds s lam tm, p = ex_pen ds s lam None tm) ->
  Sorted (@start_le Z) ps -> good ps.
Proof.
  intros ps H HS. repeat split; try assumption.
  - intros p q Hp _ Hn. destruct (H p Hp) as (?&?&?&?&->). now destruct Hn.
  - intros k E. unfold id_count in E.
    assert (Z : count_occ optnat_eq_dec (map (@t_id Z) ps) (Some k) = 0).
    { apply count_occ_not_In. intros Hin. apply in_map_iff in Hin. destruct Hin as [p [Ep Hp]].
      destruct (H p Hp) as (?&?&?&?&->). discriminate. }
    rewrite Z in E. discriminate.
  - destruct (H p H0) as (?&?&?&?&->). reflexivity.
  - destruct (H p H0) as (?&?&?&?&->). eexists; reflexivity.
  - destruct (H p H0) as (?&?&?&?&->). eexists; reflexivity.
  - destruct (H p H0) as (?&?&?&?&->). reflexivity.
  - destruct (H p H0) as (?&?&?&?&->). reflexivity.
Qed.

Lemma ex_block ds s lam id tm i j : length ds = 2 ->
  t_Semb (ex_pen ds s lam id tm) i j
  = blockdiag 0%Z s (length ds) 1 (t_S (ex_pen ds s lam id tm)) i j.
Proof.
  intros E. simpl. unfold block_at, blockdiag. rewrite E. simpl.
  destruct (Nat.leb_spec s i); simpl; [|reflexivity].
  destruct (Nat.leb_spec s j); simpl; [|now rewrite andb_false_r].
  destruct (Nat.ltb_spec i (s + 2)); simpl; [|reflexivity].
  destruct (Nat.ltb_spec j (s + 2)); simpl; [|reflexivity].
  change (fst (Nat.divmod ?a 1 0 1)) with (a / 2). change (fst (Nat.divmod (j - s) 1 0 1)) with ((j - s) / 2).
  rewrite !(Nat.div_small _ 2), Nat.eqb_refl by lia.
  assert (Hi : i - s = 0 \/ i - s = 1) by lia. assert (Hj : j - s = 0 \/ j - s = 1) by lia.
  destruct Hi as [-> | ->], Hj as [-> | ->]; reflexivity.
Qed.

Example C110_case :
  good ex_roots /\ laid_out ex_roots /\ gapless ex_roots /\
  (forall p, In p ex_roots -> (Z.sqrt (t_lam p) * Z.sqrt (t_lam p))%Z = t_lam p) /\
  (forall p i j, In p ex_roots -> t_Semb p i j = blockdiag 0%Z (t_start p) (t_dim p) (t_rep p) (t_S p) i j) /\
  (forall p i j, In p ex_roots -> ~ alone ex_roots p -> i < t_dim p -> j < t_dim p ->
     let B := block_sum 0%Z Z.add Z.mul (t_start p) ex_roots in
     nsum 0%Z Z.add (t_dim p) (fun k => ex_eroot (t_dim p) B i k * ex_eroot (t_dim p) B j k)%Z = B i j) /\
  exists ms r, combine_shared_penalties Z.add ex_roots = Some ms /\
    compute_S_root 0%Z Z.add Z.mul Z.sqrt ex_eroot ms = Some r /\
    map (fun i => r i i) [0; 1; 2; 3; 4] = [0; 2; 2; 2; 3]%Z.
Proof.
  split; [|split; [|split; [|split; [|split; [|split]]]]].
  - apply ex_good; [|repeat constructor; unfold start_le; simpl; lia].
    intros p Hp. each Hp; repeat eexists.
  - intros p q Hp Hq. each Hp; each Hq; simpl; unfold pen_end; simpl; lia.
  - intros p q Hp Hq Hlt. each Hp; each Hq; simpl in Hlt; try lia;
      exists (ex_pen [1; 0]%Z 3 4 None 1); (split; [simpl; tauto|reflexivity]).
  - intros p Hp. each Hp; reflexivity.
  - intros p i j Hp. each Hp; now apply ex_block.
  - intros p i j Hp Ha Hi Hj. each Hp.
    1: now destruct Ha.
    all: simpl in Hi, Hj; destruct i as [|[|i]]; try lia; destruct j as [|[|j]]; try lia; reflexivity.
  - do 2 eexists. split; [reflexivity|]. split; [reflexivity|]. reflexivity.
Qed.

(** C110 fails with unpenalised coefficients between penalised ones.  One formula: an intercept, a smooth
    with one penalty (coefficients 1, 2), a smooth with is_penalized=False (3, 4), a tensor smooth with two
    penalties (5, 6).  The block of the tensor smooth lands on the coefficients of the unpenalised
    smooth: the QR solver penalises those and leaves the tensor smooth unpenalised. *)
Definition ex_gap : list (lterm Z) :=
  [ex_pen [1; 1]%Z 1 4 None 0; ex_pen [1; 0]%Z 5 4 None 2; ex_pen [0; 1]%Z 5 9 None 2].
Theorem C110_gap_refuted : exists ms r,
  good ex_gap /\ laid_out ex_gap /\
  combine_shared_penalties Z.add ex_gap = Some ms /\
  compute_S_root 0%Z Z.add Z.mul Z.sqrt ex_eroot ms = Some r /\
  map (fun i => total 0%Z Z.add Z.mul ex_gap i i) [0; 1; 2; 3; 4; 5; 6] = [0; 4; 4; 0; 0; 4; 9]%Z /\
  map (fun i => nsum 0%Z Z.add 7 (fun k => r i k * r i k)%Z) [0; 1; 2; 3; 4; 5; 6] = [0; 4; 4; 4; 9; 0; 0]%Z.
Proof.
  do 2 eexists. split; [|split; [|split; [reflexivity|split; [reflexivity|split; reflexivity]]]].
  - apply ex_good; [|repeat constructor; unfold start_le; simpl; lia].
    intros p Hp. each Hp; repeat eexists.
  - intros p q Hp Hq. each Hp; each Hq; simpl; unfold pen_end; simpl; lia.
Qed.
Print Assumptions C110_gap_refuted.
