(** Coefficient step control, family parameter updates, line search and quasi-Newton memory
    (gamm_solvers.py).

    Vectors are lists of reals; the outcome of evaluating a likelihood or deviance is an
    [ext] (Ext.v), so infinite and undefined values are part of the model.  Floating point
    rounding is not modelled.  Progress bars and warnings are left out. *)

From Coq Require Import List Arith Bool Reals.
From Verif Require Import Ext.
Import ListNotations.
Local Open Scope R_scope.

(** numpy's (a + b) / 2 for vectors. *)
Definition vmid (a b : list R) : list R := map (fun p => (fst p + snd p) / 2) (combine a b).

(** Boolean mask selection, y[inval == False]. *)
Definition keep_valid {A} (inval : list bool) (l : list A) : list A :=
  map snd (filter (fun p => negb (fst p)) (combine inval l)).

(** Row by row disjunction, inval | np.isnan(next_mus[mi]). *)
Definition mask_or (a b : list bool) : list bool := map (fun p => fst p || snd p) (combine a b).

(** ** correct_coef_step, gamm_solvers.py:1738-1858 *)
Section GammStep.
(** X @ coef + offset, from the model matrix or block-wise from files (lines 1822-1832; the
    block-wise versions give the same vector, see C50). *)
Variable lin : list R -> list R.
(** family.link.fi, line 1844, entry by entry. *)
Variable fi : R -> ext.
(** isinstance(family, Gaussian) and isinstance(family.link, Identity). *)
Variable gauss_id : bool.
(** family.deviance(y, mu), line 1848. *)
Variable deviance : list R -> list ext -> ext.
(** n_coef.T @ S_emb @ n_coef, line 1853. *)
Variable quad_S : list R -> R.
Variable n_pen : nat.
Variable y : list R.

(** The tuple (dev, pen_dev, mu, eta, n_coef) of local variables. *)
Record gfit := mkFit { f_dev : ext; f_pen : ext; f_mu : list ext; f_eta : list R; f_coef : list R }.

(** Lines 1822-1853: evaluate the model at [c]. *)
Definition gamm_eval (c : list R) : gfit :=
  let eta := lin c in
  let mu := if gauss_id then map Fin eta else map fi eta in
  let inval := map isnan mu in
  let dev := deviance (keep_valid inval y) (keep_valid inval mu) in
  let pen := match n_pen with O => dev | _ => eadd dev (quad_S c) end in
  mkFit dev pen mu eta c.

(** The loop at lines 1799-1857; None if [fuel] runs out.  [st] holds the local variables. *)
Fixpoint coef_loop (fuel corrections : nat) (coef : list R) (c_dev_prev : ext) (st : gfit)
  : option gfit :=
  match fuel with
  | O => None
  | S fuel' =>
      if eltb c_dev_prev (f_pen st) || (isinf (f_pen st) || isnan (f_pen st)) then
        let n_coef := if (30 <? corrections)%nat then coef else f_coef st in
        if (31 <? corrections)%nat
        then Some (mkFit (f_dev st) (f_pen st) (f_mu st) (f_eta st) n_coef)
        else coef_loop fuel' (corrections + 1) coef c_dev_prev (gamm_eval (vmid coef n_coef))
      else Some st
  end.

Definition correct_coef_step (fuel : nat) (coef n_coef : list R) (dev pen_dev c_dev_prev : ext)
    (eta : list R) (mu : list ext) : option gfit :=
  coef_loop fuel 0 coef c_dev_prev (mkFit dev pen_dev mu eta n_coef).
End GammStep.

(** ** correct_coef_step_gammlss, gamm_solvers.py:4613-4733 *)

(** np.split(v, idx) (gamm_solvers.py:4663): the pieces between the positions [idx]. *)
Fixpoint np_split_from {A} (start : nat) (v : list A) (idx : list nat) : list (list A) :=
  match idx with
  | [] => [skipn start v]
  | i :: idx' => firstn (i - start) (skipn start v) :: np_split_from i v idx'
  end.
Definition np_split {A} (v : list A) (idx : list nat) : list (list A) := np_split_from 0 v idx.

Section GammlssStep.
(** Xs[i] @ coef_i *)
Variable Xmul : nat -> list R -> list R.
(** family.links[i].fi *)
Variable fi : nat -> R -> ext.
(** family.llk(y, *mus) *)
Variable llk : list R -> list (list ext) -> ext.
Variable quad_S : list R -> R.
Variable n_par : nat.
Variable coef_split_idx : list nat.
Variable y : list R.

(** (next_coef, next_split_coef, next_mus, next_etas, next_llk, next_pen_llk) *)
Record lfit := mkLfit { l_coef : list R; l_split : list (list R); l_mus : list (list ext);
  l_etas : list (list R); l_llk : ext; l_pen : ext }.

(** Lines 4673-4678: rows with an undefined mean in some parameter (only the first parameter
    is looked at if coef_split_idx is empty). *)
Definition inval_rows (mus : list (list ext)) : list bool :=
  match mus with
  | [] => []
  | m :: ms =>
      match coef_split_idx with
      | [] => map isnan m
      | _ => fold_left (fun acc m' => mask_or acc (map isnan m')) ms (map isnan m)
      end
  end.

(** Lines 4663-4687 and again 4702-4725. *)
Definition gammlss_eval (c : list R) : lfit :=
  let sc := np_split c coef_split_idx in
  let etas := map (fun i => Xmul i (nth i sc [])) (seq 0 n_par) in
  let mus := map (fun i => map (fi i) (nth i etas [])) (seq 0 n_par) in
  let inval := inval_rows mus in
  let l := llk (keep_valid inval y) (map (keep_valid inval) mus) in
  mkLfit c sc mus etas l (eadd l (- (1 / 2 * quad_S c))).

(** The loop at lines 4690-4725, the number of the last check is returned as well.
    [remaining] is what is left of range(32). *)
Fixpoint gammlss_loop (remaining n_checks : nat) (coef : list R) (prev : ext) (st : lfit)
  : lfit * nat :=
  match remaining with
  | O => (st, n_checks - 1)%nat
  | S r =>
      if eleb prev (l_pen st) && (negb (isinf (l_pen st)) && negb (isnan (l_pen st)))
      then (st, n_checks)
      else
        let next := if (30 <? n_checks)%nat then coef else l_coef st in
        gammlss_loop r (n_checks + 1) coef prev (gammlss_eval (vmid coef next))
  end.

(** Lines 4728-4731: the step length remembered for the next iteration. *)
Definition adapt_a (n_checks : nat) (a : R) : R :=
  if (0 <? n_checks)%nat && rltb (/ 1000000000) a then a / 2
  else if (n_checks =? 0)%nat && rltb a 1 then a * 2 else a.

Definition correct_coef_step_gammlss (coef next_coef : list R) (c_llk : ext) (a : R) : lfit * R :=
  let prev := eadd c_llk (- (1 / 2 * quad_S coef)) in
  let (st, n) := gammlss_loop 32 0 coef prev (gammlss_eval next_coef) in
  (st, adapt_a n a).
End GammlssStep.

(** ** correct_coef_step_gen_smooth, gamm_solvers.py:6444-6517 *)
Section GenSmoothStep.
(** family.llk(coef, coef_split_idx, ys, Xs) *)
Variable llk : list R -> ext.
Variable quad_S : list R -> R.

(** Lines 6491, 6508-6509: (next_coef, next_llk, next_pen_llk) *)
Definition gen_eval (c : list R) : list R * ext * ext :=
  (c, llk c, eadd (llk c) (- (1 / 2 * quad_S c))).

Fixpoint gen_loop (remaining n_checks : nat) (coef : list R) (prev : ext)
  (st : list R * ext * ext) : (list R * ext * ext) * nat :=
  match remaining with
  | O => (st, n_checks - 1)%nat
  | S r =>
      let '(next, _, pen) := st in
      if eleb prev pen && (negb (isinf pen) && negb (isnan pen)) then (st, n_checks)
      else
        let next' := if (30 <? n_checks)%nat then coef else next in
        gen_loop r (n_checks + 1) coef prev (gen_eval (vmid coef next'))
  end.

Definition correct_coef_step_gen_smooth (coef next_coef : list R) (c_llk : ext) (a : R)
  : (list R * ext * ext) * R :=
  let prev := eadd c_llk (- (1 / 2 * quad_S coef)) in
  let (st, n) := gen_loop 32 0 coef prev (gen_eval next_coef) in
  (st, adapt_a n a).
End GenSmoothStep.

(** ** updateTheta, gamm_solvers.py:2552-2635 *)
Section UpdateTheta.
(** family.llk(y, mu, theta) *)
Variable llk : list R -> ext.
(** The test of line 2587, np.max(np.abs(grad)) < 1e-7*abs(cllk), at theta. *)
Variable grad_small : list R -> ext -> bool.
(** The Newton proposal theta + INH @ grad of lines 2592-2600. *)
Variable proposal : list R -> list R.

(** Lines 2608-2622; None: the return at line 2614. *)
Fixpoint theta_halve (remaining n_checks : nat) (theta nTheta : list R) (cllk nllk : ext)
  : option (list R * ext) :=
  match remaining with
  | O => Some (nTheta, nllk)
  | S r =>
      if eltb cllk nllk && (negb (isinf nllk) && negb (isnan nllk)) then Some (nTheta, nllk)
      else if (30 <? n_checks)%nat then None
      else let nt := vmid theta nTheta in theta_halve r (n_checks + 1) theta nt cllk (llk nt)
  end.

(** Lines 2584-2635. *)
Fixpoint theta_loop (outer : nat) (theta : list R) (cllk : ext) : list R :=
  match outer with
  | O => theta
  | S o =>
      if grad_small theta cllk then theta
      else
        let nt := proposal theta in
        match theta_halve 32 0 theta nt cllk (llk nt) with
        | None => theta
        | Some (nt', nllk) => theta_loop o nt' nllk
        end
  end.

Definition updateTheta (theta : list R) : list R := theta_loop 200 theta (llk theta).
End UpdateTheta.

(** ** back_track_alpha, gamm_solvers.py:6520-6572 *)
Section BackTrack.
(** llk_fun along the ray, alpha -> llk_fun(coef + alpha*step). *)
Variable llk_at : R -> ext.
(** llk_fun(coef) and c_grad.T @ step. *)
Variables (c_llk : ext) (slope : R).
Variable c1 : R.

Fixpoint bt_loop (remaining : nat) (alpha : R) : option R :=
  match remaining with
  | O => None
  | S r =>
      let n := llk_at alpha in
      if eleb n (eadd c_llk (alpha * c1 * slope)) && (negb (isnan n) && negb (isinf n))
      then Some alpha else bt_loop r (alpha / 2)
  end.
Definition back_track_alpha (alpha_max : R) (max_iter : nat) : option R :=
  bt_loop max_iter alpha_max.
End BackTrack.

(** ** update_ys_qefs, gamm_solvers.py:6816-6907 (the scaling omega of lines 6909-6912 is left
    out; it is computed from the returned memory) *)
Section Memory.
(** The test whether a pair must be skipped, test_SR1 (compact_rep.py). *)
Variable test_SR1 : list R -> list R -> R -> list (list R) -> list (list R) -> list R -> bool.

Definition dot (a b : list R) : R := fold_right Rplus 0 (map (fun p => fst p * snd p) (combine a b)).
Definition vsub (a b : list R) : list R := map (fun p => fst p - snd p) (combine a b).
Definition vscale (r : R) (a : list R) : list R := map (Rmult r) a.

(** (yks, sks, rhos) *)
Record mem := mkMem { m_y : list (list R); m_s : list (list R); m_rho : list R }.

(** np.append along the rows, then np.delete of row 0 if the limit is exceeded
    (lines 6889-6906). *)
Definition mem_add (maxcor : nat) (sk yk : list R) (rhok : R) (m : mem) : mem :=
  let s := match m_s m with [] => [sk] | l => l ++ [sk] end in
  let y := match m_s m with [] => [yk] | _ => m_y m ++ [yk] end in
  let r := match m_s m with [] => [rhok] | _ => m_rho m ++ [rhok] end in
  if (maxcor <? length s)%nat then mkMem (skipn 1 y) (skipn 1 s) (skipn 1 r) else mkMem y s r.

(** Lines 6873-6907 for yk = None: the pair is formed from the gradients and the step;
    1/(yk.T sk) is infinite or undefined exactly if the product is zero. *)
Definition update_ys_qefs (grad_up next_grad_up step : list R) (alpha : R) (skip : bool)
    (maxcor : nat) (m : mem) : mem * bool :=
  let yk := vsub (vscale (-1) next_grad_up) (vscale (-1) grad_up) in
  let sk := vscale alpha step in
  let ys := dot yk sk in
  let skip1 := skip || (if Req_EM_T ys 0 then true else false) in
  let skip2 := skip1 || test_SR1 sk yk (/ ys) (m_s m) (m_y m) (m_rho m) in
  if skip2 then (m, true) else (mem_add maxcor sk yk (/ ys) m, false).

(** Lines 6885-6907 for a pair that is passed in. *)
Definition update_ys_qefs_given (yk sk : list R) (rhok : R) (skip : bool) (maxcor : nat) (m : mem)
  : mem * bool :=
  let skip2 := skip || test_SR1 sk yk rhok (m_s m) (m_y m) (m_rho m) in
  if skip2 then (m, true) else (mem_add maxcor sk yk rhok m, false).
End Memory.
