(** Model of the transformation of a whole model: /repo/src/mssm/src/python/repara.py, reparam (option 4, the second
    half) and reparam_model, and of undoing it: gamm_solvers.py, correct_lambda_step_gamlss and
    correct_lambda_step_gen_smooth.

    Matrices are functions from row and column to the entry, as in ReparModel; vectors are functions, too. *)

From Coq Require Import Reals.
From mathcomp Require Import all_ssreflect all_algebra.
From Verif Require Import RealField RealMat ReparModel.
Import GRing.Theory.
Set Implicit Arguments.
Unset Strict Implicit.
Unset Printing Implicit Defensive.
Local Open Scope ring_scope.

(** embed_in_S_sparse, penalties.py:258-273: the entries of a matrix with [r] rows and columns are added from row
    and column [c] on.  (None for S_emb is [zeros].  The index that is returned is computed where it is used.) *)
Definition place (r : nat) (B : mat) (S : mat) (c : nat) : mat := fun i j =>
  S i j + (if [&& c <= i, i < c + r, c <= j & j < c + r]%N then B (i - c)%N (j - c)%N else 0).

(** Repeated for the blocks that share a penalty: repara.py:619-631, :675-696. *)
Fixpoint place_reps (n r sz : nat) (B : mat) (S : mat) (c : nat) : mat :=
  match n with 0%N => S | m.+1 => place_reps m r sz B (place r B S c) (c + sz) end.

(** A penalty of a group: the transformed S_J, the root D_J_emb (with its number of columns), and lam. *)
Record pen := Pen { p_S : mat; p_D : mat; p_cols : nat; p_lam : R }.

(** What the first half of reparam leaves for a term: the parameter (dist_param), rep_sj, SJ_coef, the dimension of
    the range space, SJ_idx, and the results of ReparModel.reparam_term. *)
Record group := Group {
  g_par : nat; g_reps : nat; g_dim : nat; g_r : nat; g_start : nat;
  g_Q : mat; g_S : mat; g_pens : seq pen }.

(** S_J_emb and D_J_emb of a penalty after the transformation, repara.py:615-638 ([n]: number of coefficients). *)
Definition S_J_emb_rp (g : group) (p : pen) : mat := place_reps (g_reps g) (g_r g) (g_dim g) (p_S p) zeros (g_start g).
Definition D_J_emb_rp (n : nat) (g : group) (p : pen) : mat :=
  mul n (tr (place_reps (g_reps g) (g_dim g) (g_dim g) (g_Q g) zeros (g_start g))) (p_D p).

(** (form_root and form_inverse, :650-672 and :680-692, are not modelled.)  The total penalty, repara.py:675-696. *)
Definition S_emb_rp (gs : seq group) : mat :=
  foldl (fun S g => place_reps (g_reps g) (g_r g) (g_dim g) (g_S g) S (g_start g)) zeros gs.

(** ** reparam_model, repara.py:816-922 *)
Section Model.
Variables (dist_coef dist_up_coef : nat -> nat).

(** The variables of the loop. *)
Record st := St { Qs : seq mat; Qd : mat; cd : nat; Qe : mat; c_idx : nat; dist_idx : nat }.

(** Before the loop, :816-834. *)
Definition init : st :=
  let u := dist_up_coef 0 in St [::] (place u eye zeros 0) u (place u eye zeros 0) u 0.

(** The next parameter, :840-863. *)
Definition next_par (s : st) : st :=
  let u := dist_up_coef (dist_idx s).+1 in
  St (rcons (Qs s) (Qd s)) (place u eye zeros 0) u (place u eye (Qe s) (c_idx s)) (c_idx s + u) (dist_idx s).+1.

(** One copy of a term's basis, :870-881. *)
Definition fill (g : group) (s : st) : st :=
  St (Qs s) (place (g_dim g) (g_Q g) (Qd s) (cd s)) (cd s + g_dim g) (place (g_dim g) (g_Q g) (Qe s) (c_idx s))
     (c_idx s + g_dim g) (dist_idx s).

(** The body of the loop over groups, :836-881. *)
Definition step (s : st) (g : group) : st :=
  iter (g_reps g) (fill g) (iter (g_par g - dist_idx s) next_par s).

(** Q_emb and Qs, :816-895. *)
Definition bases (n : nat) (gs : seq group) : mat * seq mat :=
  let s := foldl step init gs in
  (if c_idx s != n then place (n - c_idx s) eye (Qe s) (c_idx s) else Qe s, rcons (Qs s) (Qd s)).

(** The transformed model matrices and coefficients of a parameter, :910-922; [Xs] and [coefs] by parameter (np.split
    by parameter is C52). *)
Definition Xs_rp (n : nat) (gs : seq group) (Xs : nat -> mat) (d : nat) : mat :=
  let Qs := (bases n gs).2 in if (d < size Qs)%N then mul (dist_coef d) (Xs d) (nth zeros Qs d) else Xs d.
Definition coef_rp (n : nat) (gs : seq group) (coefs : nat -> nat -> R) (d : nat) : nat -> R := fun i =>
  let Qs := (bases n gs).2 in
  if (d < size Qs)%N then \sum_(a < dist_coef d) nth zeros Qs d a i * coefs d a else coefs d i.

(** Undoing it, gamm_solvers.py:5946-5962, :8954-8973: the penalty, the coefficients of a parameter, the Hessian and
    the inverse of its factor. *)
Definition undo_S (n : nat) (gs : seq group) (S : mat) : mat :=
  let Q := (bases n gs).1 in mul n Q (mul n S (tr Q)).
Definition undo_coef (n : nat) (gs : seq group) (coefs : nat -> nat -> R) (d : nat) : nat -> R := fun i =>
  let Qs := (bases n gs).2 in
  if (d < size Qs)%N then \sum_(a < dist_coef d) nth zeros Qs d i a * coefs d a else coefs d i.
Definition undo_LV (n : nat) (gs : seq group) (LV : mat) : mat := mul n LV (tr (bases n gs).1).
End Model.
