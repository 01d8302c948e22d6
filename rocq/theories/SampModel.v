(** Sampling pairs for the quasi-Newton approximation at the estimate.
    Source: /repo/src/mssm/src/python/gamm_solvers.py (sample_ys_qefs, restart_coef).

    Vectors are lists of reals, values of the log-likelihood floating point outcomes (Ext).  Normal random numbers are
    drawn one vector at a time from a generator: [z k] is the k-th vector drawn. *)
From Coq Require Import String.
From Coq Require Import List Arith Bool Reals.
From Verif Require Import Ext StepModel.
Import ListNotations.
Local Open Scope R_scope.

(** Difference, division by a positive number, exponential; python's min(1, x), which keeps 1 unless x < 1. *)
Definition esub (a b : ext) : ext :=
  match a, b with
  | NaN, _ | _, NaN => NaN
  | Fin x, Fin y => Fin (x - y)
  | PInf, PInf | MInf, MInf => NaN
  | PInf, _ | _, MInf => PInf
  | MInf, _ | _, PInf => MInf
  end.
Definition ediv (a : ext) (T : R) : ext := match a with Fin x => Fin (x / T) | _ => a end.
Definition eexp (a : ext) : ext := match a with Fin x => Fin (exp x) | PInf => PInf | MInf => Fin 0 | NaN => NaN end.
Definition py_min_one (a : ext) : R := if eltb a (Fin 1) then match a with Fin x => x | _ => 1 end else 1.

Section Sampling.
Variable grad : list R -> list R.          (* family.gradient *)
Variable llk : list R -> ext.              (* family.llk *)
Variable quad_S : list R -> R.             (* c.T @ S_emb @ c *)
Variable LVt : list R -> list R.           (* LV.T @ v, gamm_solvers.py:7034-7040 *)
Variable z : nat -> list R.                (* scp.stats.norm.rvs(size=len(coef), random_state=np_gen) *)
Variable test_SR1 : list R -> list R -> R -> list (list R) -> list (list R) -> list R -> bool.
Variable coef : list R.

(** Penalised log-likelihood, gamm_solvers.py:7031, :7072. *)
Definition pen_llk (c : list R) : ext := eadd (llk c) (- (1 / 2 * quad_S c)).

(** acc, gamm_solvers.py:7067-7075, for the k-th draw and radius r. *)
Definition acceptance (T r : R) (k : nat) : R :=
  py_min_one (eexp (ediv (esub (pen_llk (vsub coef (vscale r (LVt (z k))))) (pen_llk coef)) T)).

(** The state (r, rbar, Hbar) of the loop. *)
Record radius := mkRad { r_now : R; r_bar : R; h_bar : R }.

(** One iteration, gamm_solvers.py:7052-7084; gamma, t0 and kappa are constants of the code, mu is log(10 init_r). *)
Definition adapt_step (mu T delta : R) (t : nat) (st : radius) : radius :=
  let acc := acceptance T (r_now st) (t - 1) in
  let Hbar := h_bar st + (delta - acc) in
  let etat := Rpower (INR t) (- (75 / 100)) in
  let logr := mu - (sqrt (INR t) / (5 / 100)) * (1 / (INR t + 10)) * Hbar in
  mkRad (exp logr) (exp (etat * logr + (1 - etat) * ln (r_bar st))) Hbar.

(** for t in range(1, Madapt + 1); [n] iterations from [t] on. *)
Fixpoint adapt_loop (mu T delta : R) (t n : nat) (st : radius) : radius :=
  match n with
  | O => st
  | S m => adapt_loop mu T delta (S t) m (adapt_step mu T delta t st)
  end.

(** The radius, gamm_solvers.py:7043-7087. *)
Definition adapted (init_r T delta : R) (adapt_r : bool) (Madapt : nat) : R :=
  if adapt_r then r_bar (adapt_loop (ln (10 * init_r)) T delta 1 Madapt (mkRad init_r 1 0)) else init_r.

(** for _ in range(maxcor), gamm_solvers.py:7089-7127: draws from the k-th on; returns the memory and updates. *)
Fixpoint sample_loop (r : R) (maxcor n k : nat) (m : mem) (updates : nat) : mem * nat :=
  match n with
  | O => (m, updates)
  | S n' =>
      let step0 := LVt (z k) in
      let n_coef := vsub coef (vscale r step0) in
      let (m', skip) := update_ys_qefs test_SR1 (grad n_coef) (grad coef) step0 r false maxcor m in
      sample_loop r maxcor n' (S k) m' (if skip then updates else S updates)
  end.

(** The derivative of r -> -grad(coef + r sk) at 0 by scp.differentiate.jacobian, gamm_solvers.py:7137-7152. *)
Variable pearl : list R -> list R.

(** The second method, gamm_solvers.py:7131-7173; 1 / (yk.T @ sk) is zero instead of infinite if the product is zero. *)
Fixpoint pearl_loop (maxcor n k : nat) (m : mem) (updates : nat) : mem * nat :=
  match n with
  | O => (m, updates)
  | S n' =>
      let sk := z k in
      let yk := pearl sk in
      let (m', skip) := update_ys_qefs_given test_SR1 yk sk (/ dot yk sk) false maxcor m in
      pearl_loop maxcor n' (S k) m' (if skip then updates else S updates)
  end.

(** sample_kwargs: the keys that are read, and the list of all keys. *)
Record kwargs := mkKw { k_r : option R; k_adapt : option bool; k_T : option R; k_Madapt : option nat; k_delta : option R;
                        k_n : option nat; k_keys : list string }.
Definition or_else {A} (o : option A) (d : A) : A := match o with None => d | Some a => a end.

(** Keyword arguments of scp.differentiate.jacobian; others raise TypeError. *)
Definition jacobian_keys : list string :=
  ["tolerances"; "maxiter"; "order"; "initial_step"; "step_factor"; "step_direction"]%string.
Definition accepted_keys (keys : list string) : bool :=
  forallb (fun k => existsb (String.eqb k) jacobian_keys) keys.

(** sample_ys_qefs, gamm_solvers.py:7002-7175; None if an exception is raised.  LV is an argument of the model, see
    above. *)
Definition sample_ys_qefs (maxcor method : nat) (kw : kwargs) : option (mem * nat) :=
  let empty := mkMem [] [] [] in
  match method with
  | O =>
      let adapt_r := or_else (k_adapt kw) true in
      let Madapt := or_else (k_Madapt kw) 100%nat in
      let n := or_else (k_n kw) maxcor in
      let r := adapted (or_else (k_r kw) 10) (or_else (k_T kw) 1) (or_else (k_delta kw) (80 / 100)) adapt_r Madapt in
      Some (sample_loop r n n (if adapt_r then Madapt else 0) empty 0)
  | S O =>
      match maxcor with
      | O => Some (empty, 0%nat)
      | _ => if accepted_keys (k_keys kw) then Some (pearl_loop maxcor maxcor 0 empty 0) else None
      end
  | _ => Some (empty, 0%nat)
  end.
End Sampling.

(** The dictionary handed over by GSMM.fit: n_samples is always among its keys, models.py:1139-1157.  N_b is the number
    of coefficients that are approximated; the identity given as H0 is only a key here. *)
Definition from_fit (user : option kwargs) (N_u N_b : nat) : kwargs :=
  let kw := match user with
            | None => mkKw None None None None (Some (99 / 100)) None
                           ("delta"%string :: (if (N_u =? N_b)%nat then ["add_pen"; "H0"]%string else []))
            | Some kw => kw
            end in
  if existsb (String.eqb "n_samples") (k_keys kw) then kw
  else mkKw (k_r kw) (k_adapt kw) (k_T kw) (k_Madapt kw) (k_delta kw) (Some N_u) (k_keys kw ++ ["n_samples"]%string).

(** ** restart_coef, gamm_solvers.py:6626-6692 *)
Section Restart.
Variable llk : list R -> ext.
Variable quad_S : list R -> R.
Variable rvs : nat -> list R.              (* normal numbers drawn with seed outer + res_checks *)

(** res_scale, gamm_solvers.py:6669. *)
Definition res_scale (outer restart_counter : nat) : R :=
  if (outer <=? 10)%nat then 1 / 2 else 1 / INR (restart_counter + 2).

Definition vadd (a b : list R) : list R := map (fun p => fst p + snd p) (combine a b).

(** The loop, gamm_solvers.py:6672-6690: [n] checks are left. *)
Fixpoint restart_loop (n : nat) (scale : R) (seed : nat) (coef : list R) (c_llk c_pen : ext) : list R * ext * ext :=
  match n with
  | O => (coef, c_llk, c_pen)
  | S m =>
      let res := vadd (vscale (1 - scale) coef) (vscale scale (rvs seed)) in
      let res_llk := llk res in
      let res_pen := eadd res_llk (- (1 / 2 * quad_S res)) in
      if isinf res_pen || isnan res_pen then restart_loop m scale (S seed) coef c_llk c_pen
      else (res, res_llk, res_pen)
  end.
Definition restart_coef (coef : list R) (c_llk c_pen : ext) (outer restart_counter : nat) : list R * ext * ext :=
  restart_loop 30 (res_scale outer restart_counter) outer coef c_llk c_pen.
End Restart.
