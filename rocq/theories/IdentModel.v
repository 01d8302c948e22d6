(** Coefficients that cannot be identified.
    Source: /repo/src/mssm/src/python/gamm_solvers.py (identify_drop).

    Matrices over any ordered field.  Decompositions are oracles: [dqrr] gives the pivots and the rank of a pivoted QR
    decomposition, [fine] tells that the Cholesky decomposition works and the estimated condition number is acceptable,
    [svds] gives the right singular vector of the smallest singular value (None if both solvers raise), [splu] the factor
    U and the column order of an LU decomposition (None if it raises). *)
From mathcomp Require Import all_ssreflect all_algebra.
Set Implicit Arguments. Unset Strict Implicit. Unset Printing Implicit Defensive.
Import GRing.Theory Num.Theory.
Local Open Scope ring_scope.

Section Identify.
Variable F : realFieldType.
Variable n : nat.
Variable norm : 'M[F]_n -> F.
Variable isqrt : F -> F.                 (* np.power(x, -0.5) *)
Variable eps2 : F.                       (* the square of the machine precision *)

(** -H / norm(H) + S and its scaling by the diagonal, gamm_solvers.py:4787-4797. *)
Definition neg_hessian (H S : 'M[F]_n) : 'M[F]_n := - ((norm H)^-1 *: H) + S.
Definition scale_of (A : 'M[F]_n) (i : 'I_n) : F := let a := `|A i i| in isqrt (if a < eps2 then 1 else a).
Definition scaled (A : 'M[F]_n) : 'M[F]_n := \matrix_(i, j) (scale_of A i * A i j * scale_of A j).

(** M[keep, :][:, keep], gamm_solvers.py:4906-4907. *)
Definition sub (A : 'M[F]_n) (K : seq 'I_n) : 'M[F]_(size K) :=
  \matrix_(i, j) A (tnth (in_tuple K) i) (tnth (in_tuple K) j).

Definition sorted_idx (K : seq 'I_n) : seq 'I_n := sort (fun i j : 'I_n => (i <= j)%N) K.
Definition others (D : seq 'I_n) : seq 'I_n := [seq c <- enum 'I_n | c \notin D].

(** What is returned, keep and drop; [Raised] if an exception is raised, [Spins] if the loop has not ended. *)
Inductive result := Ret (keep dropped : seq 'I_n) | Raised | Spins.

(** method "QR", gamm_solvers.py:4799-4813. *)
Variable dqrr : 'M[F]_n -> seq 'I_n * nat.
Definition identify_qr (A : 'M[F]_n) : result :=
  let (Pr, rank) := dqrr A in
  if (rank < n)%N then let D := drop rank Pr in Ret (sorted_idx (others D)) (sorted_idx D)
  else Ret (sorted_idx (enum 'I_n)) [::].

Variable fine : forall k, 'M[F]_k -> bool.
Variable svds : forall k, 'M[F]_k -> option (seq F).
Variable splu : forall k, 'M[F]_k -> option ('M[F]_k * seq nat).

(** The vector wk, gamm_solvers.py:4848-4897: None if an exception leaves the function. *)
Definition null_vector (lu : bool) k (M : 'M[F]_k) : option (option (seq F)) :=
  if lu then
    match splu M with
    | None => None
    | Some (U, perm_c) => Some (omap (fun v => [seq nth 0 v (nth 0%N perm_c i) | i <- iota 0 k]) (svds U))
    end
  else Some (svds M).

(** w[keep] = wk.flatten(), gamm_solvers.py:4890-4898. *)
Definition embed (K : seq 'I_n) (wk : seq F) (i : 'I_n) : F := if i \in K then nth 0 wk (index i K) else 0.

(** np.argmax: the first index of the largest entry. *)
Definition argmax (f : 'I_n -> F) (i0 : 'I_n) (r : seq 'I_n) : 'I_n := foldl (fun b i => if f b < f i then i else b) i0 r.

(** The loop, gamm_solvers.py:4845-4929. *)
Fixpoint drop_loop (lu : bool) (A : 'M[F]_n) (fuel : nat) (K D : seq 'I_n) : result :=
  match fuel with
  | 0 => Spins
  | fuel'.+1 =>
      match null_vector lu (sub A K) with
      | None => Raised
      | Some None => Ret (sorted_idx K) (sorted_idx D)
      | Some (Some wk) =>
          match enum 'I_n with
          | [::] => Raised
          | i0 :: r =>
              let D' := rcons D (argmax (fun i => `|embed K wk i|) i0 r) in
              let K' := others D' in
              if fine (sub A K') then Ret (sorted_idx K') (sorted_idx D') else drop_loop lu A fuel' K' D'
          end
      end
  end.

(** methods "LU" and "Direct", gamm_solvers.py:4815-4929. *)
Definition identify_loop (lu : bool) (A : 'M[F]_n) (fuel : nat) : result :=
  if fine A then Ret (sorted_idx (enum 'I_n)) [::] else drop_loop lu A fuel (enum 'I_n) [::].
End Identify.
Arguments Raised {n}. Arguments Spins {n}.
