(** The test for symmetric rank one updates.
    Source: /repo/src/mssm/src/python/gamm_solvers.py (test_SR1), compact_rep.py (compute_omega, computeHSR1). *)
From Coq Require Import List Arith Bool Reals.
From Verif Require Import Ext StepModel.
Import ListNotations.
Local Open Scope R_scope.

(** compute_omega with method "NoWr", compact_rep.py:32-33, :50-53, for memories that are not empty. *)
Definition compute_omega (yks sks : list (list R)) : R :=
  let y := last yks [] in
  let s := last sks [] in
  let omega := dot y y / dot y s in
  if rltb omega 0 then 1 else omega.

(** DK + L + L.T - STS, compact_rep.py:234-267, for H0 = omega times the identity: the matrix R of lines 244-261 has the
    products s_i y_j above the diagonal, s_0 y_0 first and 1 / rho_k further down on it. *)
Definition R_entry (s y : list (list R)) (rho : list R) (i j : nat) : R :=
  if (i <? j)%nat then dot (nth i s []) (nth j y [])
  else if (j <? i)%nat then 0
  else match i with O => dot (nth 0 s []) (nth 0 y []) | _ => 1 / nth i rho 0 end.
Definition L_entry s y rho (i j : nat) : R := dot (nth i s []) (nth j y []) - R_entry s y rho i j.
Definition middle_entry (omega : R) s y rho (i j : nat) : R :=
  (if (i =? j)%nat then dot (nth i s []) (nth i y []) else 0)
  + L_entry s y rho i j + L_entry s y rho j i - omega * dot (nth i s []) (nth j s []).
Definition middle (omega : R) (s y : list (list R)) (rho : list R) : list (list R) :=
  map (fun i => map (fun j => middle_entry omega s y rho i j) (seq 0 (length y))) (seq 0 (length y)).

Section Test.
Variable invertible : list (list R) -> bool.     (* scp.linalg.inv does not raise, compact_rep.py:267 *)

(** test_SR1, gamm_solvers.py:6728-6759: whether the update fails.  Nothing else in computeHSR1 raises; the pairs put
    together and the removal of the oldest one afterwards are local to the function. *)
Definition test_SR1 (sk yk : list R) (rho : R) (sks yks : list (list R)) (rhos : list R) : bool :=
  let s := match sks with [] => [sk] | _ => sks ++ [sk] end in
  let y := match sks with [] => [yk] | _ => yks ++ [yk] end in
  let r := match sks with [] => [rho] | _ => rhos ++ [rho] end in
  negb (invertible (middle (compute_omega y s) s y r)).
End Test.
