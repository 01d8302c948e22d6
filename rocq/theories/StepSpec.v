(** Specifications for step control, line search and quasi-Newton memory. *)

From Coq Require Import List Arith Bool Reals.
From Verif Require Import Ext.
Import ListNotations.
Local Open Scope R_scope.

(** The vector reached from [a] by going the fraction 1/2^k of the way to [b]. *)
Fixpoint partway (k : nat) (a b : list R) : list R :=
  match a, b with
  | x :: a', z :: b' => (x + (z - x) / 2 ^ k) :: partway k a' b'
  | _, _ => []
  end.

(** A penalised deviance is defined, finite and not larger than the one before. *)
Definition dev_not_worse (before now : ext) : Prop :=
  exists v, now = Fin v /\
    match before with Fin p => v <= p | MInf => False | PInf | NaN => True end.

(** A penalised log-likelihood is defined, finite and not smaller than the one before. *)
Definition llk_not_worse (before now : ext) : Prop :=
  exists v, now = Fin v /\
    match before with Fin p => p <= v | MInf => True | PInf | NaN => False end.

(** The same, strictly. *)
Definition llk_better (before now : ext) : Prop :=
  exists v, now = Fin v /\
    match before with Fin p => p < v | MInf => True | PInf | NaN => False end.

(** The rows of [l] whose mean is defined. *)
Fixpoint rows_defined {A} (mu : list ext) (l : list A) : list A :=
  match mu, l with
  | NaN :: mu', _ :: l' => rows_defined mu' l'
  | _ :: mu', x :: l' => x :: rows_defined mu' l'
  | _, _ => []
  end.

(** What the deviance, mean and linear predictor of an additive model with coefficients [c]
    are: [lin] is X c + offset, [fi] the inverse link. *)
Definition gamm_fit_of (lin : list R -> list R) (fi : R -> ext) (gauss_id : bool)
    (deviance : list R -> list ext -> ext) (quad_S : list R -> R) (penalised : bool) (y : list R)
    (c : list R) (dev pen : ext) (mu : list ext) (eta : list R) : Prop :=
  eta = lin c /\
  mu = (if gauss_id then map Fin eta else map fi eta) /\
  dev = deviance (rows_defined mu y) (rows_defined mu mu) /\
  pen = (if penalised then eadd dev (quad_S c) else dev).

(** The pieces of a coefficient vector for the parameters of a model: piece i has length
    [nth i sizes]. *)
Fixpoint pieces {A} (sizes : list nat) (v : list A) : list (list A) :=
  match sizes with
  | [] => []
  | n :: s => firstn n v :: pieces s (skipn n v)
  end.

(** Positions at which the pieces but the first begin. *)
Fixpoint cuts (start : nat) (sizes : list nat) : list nat :=
  match sizes with
  | [] => []
  | [_] => []
  | n :: s => (start + n)%nat :: cuts (start + n) s
  end.

(** Row [r] has a defined mean in every parameter. *)
Definition row_ok (mus : list (list ext)) (r : nat) : bool :=
  forallb (fun m => negb (isnan (nth r m NaN))) mus.

(** The rows of [l] with a defined mean in every parameter. *)
Definition rows_all_defined {A} (d : A) (mus : list (list ext)) (l : list A) : list A :=
  map (fun r => nth r l d) (filter (row_ok mus) (seq 0 (length l))).

(** The last [n] elements of a list. *)
Definition last_n {A} (n : nat) (l : list A) : list A := skipn (length l - n) l.

(** What the likelihood, means and linear predictors of coefficients [c] are in a model with
    several parameters: [sizes] are the numbers of coefficients of the parameters, [Xmul i]
    multiplies with the i-th model matrix, [fi i] is the i-th inverse link. *)
Definition gammlss_fit_of (Xmul : nat -> list R -> list R) (fi : nat -> R -> ext)
    (llk : list R -> list (list ext) -> ext) (quad_S : list R -> R) (sizes : list nat) (y : list R)
    (c : list R) (split : list (list R)) (mus : list (list ext)) (etas : list (list R))
    (l pen : ext) : Prop :=
  split = pieces sizes c /\
  length etas = length sizes /\ length mus = length sizes /\
  (forall i, (i < length sizes)%nat -> nth i etas [] = Xmul i (nth i split []) /\
                                       nth i mus [] = map (fi i) (nth i etas [])) /\
  l = llk (rows_all_defined 0 mus y) (map (rows_all_defined NaN mus) mus) /\
  pen = eadd l (- (1 / 2 * quad_S c)).

(** The same for a general smooth model, whose likelihood takes the coefficients. *)
Definition gen_fit_of (llk : list R -> ext) (quad_S : list R -> R) (c : list R) (l pen : ext) : Prop :=
  l = llk c /\ pen = eadd (llk c) (- (1 / 2 * quad_S c)).

(** The objective at step length [alpha] is finite and has decreased enough (Armijo). *)
Definition sufficient (obj_at : R -> ext) (obj0 : ext) (slope c1 alpha : R) : Prop :=
  exists v, obj_at alpha = Fin v /\
    match obj0 with Fin c => v <= c + c1 * alpha * slope | PInf => True | _ => False end.

(** A memory of steps, gradient differences and factors holds exactly the last [limit] of the
    triples [accepted]. *)
Definition memory_is (limit : nat) (accepted : list (list R * list R * R))
    (steps diffs : list (list R)) (rhos : list R) : Prop :=
  steps = map (fun t => fst (fst t)) (last_n limit accepted) /\
  diffs = map (fun t => snd (fst t)) (last_n limit accepted) /\
  rhos = map snd (last_n limit accepted).

Fixpoint minus_vec (a b : list R) : list R :=
  match a, b with x :: a', z :: b' => (x - z) :: minus_vec a' b' | _, _ => [] end.
Fixpoint times_vec (r : R) (a : list R) : list R :=
  match a with [] => [] | x :: a' => r * x :: times_vec r a' end.
Fixpoint inner (a b : list R) : R :=
  match a, b with x :: a', z :: b' => x * z + inner a' b' | _, _ => 0 end.
