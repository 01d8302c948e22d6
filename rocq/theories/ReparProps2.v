(** C100: a model in the transformed coordinates is the same model. *)

From Coq Require Import Reals.
From mathcomp Require Import all_ssreflect all_algebra.
From Verif Require Import RealField RealMat RealEigen ReparModel ReparModel2 ReparSpec ReparSpec2 ReparProofs ReparProofs4 ReparProofs6.
Import GRing.Theory.
Set Implicit Arguments.
Unset Strict Implicit.
Unset Printing Implicit Defensive.
Local Open Scope ring_scope.

Notation no_pen := (Pen (fun _ _ => 0) (fun _ _ => 0) 0 0).
Notation no_group := (Group 0 0 0 0 0 (fun _ _ => 0) (fun _ _ => 0) [::]).

Definition all_transformed (n : nat) (gs : seq group) (orig : nat -> nat -> nat -> nat -> R) :=
  forall k, (k < size gs)%N -> transformed n (nth no_group gs k) (orig k).

Lemma all_orth n gs orig : all_transformed n gs orig -> forall g, List.In g gs -> orthonormal (g_dim g) (g_Q g).
Proof.
move=> h g hg; have [k [lk e]] := List.In_nth gs g no_group hg.
have lk' : (k < size gs)%N by apply/ssrnat.ltP.
have -> : g = nth no_group gs k by rewrite -e; elim: gs k {h lk e hg} lk' => [|x l ih] [|k] //= lk; exact: ih.
by have [[]] := h k lk'.
Qed.

(** The linear predictors of all parameters are unchanged. *)
Theorem C100_predictors dist_coef up m n gs orig Xs coefs d t :
  laid_out dist_coef up m n gs -> all_transformed n gs orig -> (d < m)%N ->
  predictor (dist_coef d) (Xs_rp dist_coef up n gs Xs d) (coef_rp dist_coef up n gs coefs d) t =
  predictor (dist_coef d) (Xs d) (coefs d) t.
Proof. by move=> lay tr dm; apply: (pred_same lay (all_orth tr)). Qed.

(** Transforming the coefficients and back changes nothing. *)
Theorem C100_undo_coef dist_coef up m n gs orig coefs d i :
  laid_out dist_coef up m n gs -> all_transformed n gs orig -> (d < m)%N -> (i < dist_coef d)%N ->
  undo_coef dist_coef up n gs (coef_rp dist_coef up n gs coefs) d i = coefs d i.
Proof. by move=> lay tr dm lt; apply: (undo_same lay (all_orth tr)). Qed.

(** Q_emb is an orthonormal basis of all coefficients, and the coefficients that are split by parameter and
    transformed one parameter at a time are the coordinates in that basis. *)
Theorem C100_coordinates dist_coef up m n gs orig :
  laid_out dist_coef up m n gs -> all_transformed n gs orig ->
  orthonormal n (bases up n gs).1 /\
  forall b d i, (d < m)%N -> (i < dist_coef d)%N ->
    coef_rp dist_coef up n gs (fun d i => b (offset dist_coef d + i)%N) d i =
    \sum_(a < n) (bases up n gs).1 a (offset dist_coef d + i)%N * b a.
Proof.
move=> lay tr; split; first by apply/orthonormal_mx; apply: (Q_orth lay (all_orth tr)).
by move=> b d i dm lt; apply: (coords lay).
Qed.

(** Every penalty and their sum become the same penalties in that basis, and are restored exactly. *)
Theorem C100_penalties dist_coef up m n gs orig :
  laid_out dist_coef up m n gs -> all_transformed n gs orig ->
  (forall g k, (g < size gs)%N -> (k < size (g_pens (nth no_group gs g)))%N ->
     let G := nth no_group gs g in let p := nth no_pen (g_pens G) k in
     in_basis n (bases up n gs).1 (embedded G (orig g k)) (S_J_emb_rp G p) /\
     forall i j, (i < n)%N -> (j < n)%N ->
       \sum_(c < p_cols p) D_J_emb_rp n G p i c * D_J_emb_rp n G p j c = S_J_emb_rp G p i j) /\
  in_basis n (bases up n gs).1 (total_penalty gs orig) (S_emb_rp gs) /\
  forall i j, (i < n)%N -> (j < n)%N -> undo_S up n gs (S_emb_rp gs) i j = total_penalty gs orig i j.
Proof.
move=> lay tr; have o := all_orth tr.
have ib : in_basis n (bases up n gs).1 (total_penalty gs orig) (S_emb_rp gs).
  by apply/in_basis_mx; exact (prefix_total lay (fun g h => h) tr).
split; last by split => //; exact: (undo_basis lay o ib).
move=> g k lg lk; have ig : List.In (nth no_group gs g) gs by exact: nth_In.
split; first exact: (pen_basis lay ig (tr g lg) lk).
exact: (roots lay ig (tr g lg) lk).
Qed.

(** The penalty of the transformed coefficients is the penalty of the coefficients. *)
Theorem C100_penalised dist_coef up m n gs orig b b' :
  laid_out dist_coef up m n gs -> all_transformed n gs orig ->
  (forall d i, (d < m)%N -> (i < dist_coef d)%N ->
     b' (offset dist_coef d + i)%N = coef_rp dist_coef up n gs (fun d i => b (offset dist_coef d + i)%N) d i) ->
  form n (S_emb_rp gs) b' = form n (total_penalty gs orig) b.
Proof. by move=> lay tr; apply: (same_penalty lay (all_orth tr) tr). Qed.

(** The covariance matrix LV' LV of the transformed coefficients is that of the coefficients in the basis. *)
Theorem C100_covariance dist_coef up m n gs orig r LV :
  laid_out dist_coef up m n gs -> all_transformed n gs orig ->
  in_basis n (bases up n gs).1
    (fun i j => \sum_(c < r) undo_LV up n gs LV c i * undo_LV up n gs LV c j) (fun i j => \sum_(c < r) LV c i * LV c j).
Proof. by move=> lay tr; apply: (undo_cov lay (all_orth tr)). Qed.

Print Assumptions C100_predictors.
Print Assumptions C100_undo_coef.
Print Assumptions C100_coordinates.
Print Assumptions C100_penalties.
Print Assumptions C100_penalised.
Print Assumptions C100_covariance.

(** One parameter with an intercept and two copies of a term with two coefficients, of which the second is
    penalised, and another parameter with two unpenalised coefficients. *)
Definition swap : nat -> nat -> R := fun i j => if (i + j == 1)%N then 1 else 0.
Definition one_pen : pen := Pen (fun _ _ => 1) (fun i c => if (i == 2 + 2 * c)%N then 1 else 0) 2 2%:R.
Definition one_group : group := Group 0 2 2 1 1 swap (fun _ _ => 2%:R) [:: one_pen].
Definition second (_ _ : nat) : nat -> nat -> R := fun i j => if (i == 1)%N && (j == 1)%N then 1 else 0.
Definition ncoef (d : nat) : nat := if d is 0 then 5 else 2.
Definition nup (d : nat) : nat := if d is 0 then 1 else 2.

Example C100_case : laid_out ncoef nup 2 7 [:: one_group] /\ all_transformed 7 [:: one_group] second.
Proof.
split.
  split => //.
  - by split => //; rewrite /offset !big_ord_recr big_ord0.
  - by case=> [|[|//]] _; rewrite big_cons big_nil.
  - by move=> g [<-|].
  move=> [|x l1] g l2 /= [<- e]; first by rewrite big_nil /offset big_ord0.
  by case: l1 e.
case=> [|//] _; split.
  split => //.
  - move=> [|[|//]] [|[|//]] _ _; rewrite !big_ord_recr big_ord0 /= /swap /=; by rewrite ?mulr0 ?mul0r ?mulr1 ?add0r ?addr0.
  - case=> [|//] _ [|[|//]] [|[|//]] _ _; rewrite !big_ord_recr !big_ord0 /= /cornered /swap /second /=;
      by rewrite ?mulr0 ?mul0r ?mulr1 ?add0r ?addr0 ?mulr0 ?mul0r ?mulr1 ?add0r ?addr0.
  - by case=> [|//] [|//] _ _; rewrite big_ord1 /= mulr1.
  move=> x [k [hk nz]]; move: hk nz; case: k => [_ nz|//]; rewrite /form !big_ord1 /=.
  have -> : x 0%N * 2%:R * x 0%N = x 0%N * x 0%N + x 0%N * x 0%N by rewrite mulr2n mulrDr mulrDl mulr1.
  by apply: Rplus_lt_0_compat; apply: sq_gt0; apply/eqP.
case=> [|//] _ i j; rewrite /embedded /= !big_ord_recr !big_ord0 /= /second /=.
do 7?[case: i => [|i]]; do 7?[case: j => [|j]] => // _ _ /=; by rewrite ?mulr0 ?mul0r ?mulr1 ?add0r ?addr0.
Qed.
