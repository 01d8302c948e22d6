(** Estimating the coefficients of a general model given smoothing parameters.
    Source: /repo/src/mssm/src/python/gamm_solvers.py (update_coef_gen_smooth, gd_coef_smooth).

    Real numbers stand for floats, [ext] for results that may be infinite or undefined.  The log-likelihood and its
    gradient are functions of the indices of the columns left in the model matrices (None: all) and the coefficients.
    Left out: the inflation of the factor of the Hessian after the loop (gamm_solvers.py:8439-8491), which changes neither
    coefficients nor anything computed from them. *)
From Coq Require Import String.
From Coq Require Import List Bool Arith ZArith Reals.
From Verif Require Import Ext StepModel AsmModel UpdModel SampModel.
Import ListNotations.
Local Open Scope R_scope.

Section General.
Variable llk : option (list nat) -> list R -> ext.       (* family.llk *)
Variable grad : option (list nat) -> list R -> list R.   (* family.gradient *)
(** family.llk as called by check_drop_valid_gensmooth, gamm_solvers.py:6612, which has its own split positions. *)
Variable llk_check : list nat -> list R -> ext.
(** newton_coef_smooth: coefficients and the multiple of the identity added, gamm_solvers.py:8292. *)
Variable newton : option (list nat) -> list R -> list R * R.
Variable Spen : nat -> nat -> R.                          (* S_emb *)
(** normal numbers for a number of coefficients and a seed, gamm_solvers.py:6673-6675 *)
Variable rvs : nat -> nat -> list R.
(** np.abs(c_pen_llk - prev_llk_cur_pen) < conv_tol * np.abs(c_pen_llk), gamm_solvers.py:8308, 8330: left open. *)
Variable close : ext -> ext -> bool.
(** Coefficients to drop found from the Hessian at given coefficients, gamm_solvers.py:8340, left open. *)
Variable identify : list R -> list nat.
Variable extra_coef : option nat.                         (* family.extra_coef *)
(** method == "Grad"; method in ["QR/Chol", "LU/Chol", "Direct/Chol"]; arguments. *)
Variable grad_only identifies : bool.
Variable outer min_inner max_inner : nat.

(** S_emb with the rows and columns kept, gamm_solvers.py:6806-6807. *)
Definition S_at (kp : option (list nat)) (a b : nat) : R :=
  match kp with None => Spen a b | Some keep => Spen (nth a keep 0%nat) (nth b keep 0%nat) end.
Definition quad_at (kp : option (list nat)) : list R -> R := quad (S_at kp).
Definition pen_at (kp : option (list nat)) (c : list R) (l : ext) : ext := eadd l (- (1 / 2 * quad_at kp c)).

(** gd_coef_smooth, gamm_solvers.py:4577-4610. *)
Definition gd_coef_smooth (kp : option (list nat)) (coef : list R) (a : R) : list R :=
  map (fun i => nth i coef 0 + a * (nth i (grad kp coef) 0 - sum_over (seq 0 (length coef)) (fun b => S_at kp i b * nth b coef 0)))
      (seq 0 (length coef)).

(** The step proposed, gamm_solvers.py:8289-8292; eps stays 0 for gradient descent (:7985). *)
Definition proposed (kp : option (list nat)) (coef : list R) (a : R) : list R * R :=
  if grad_only then (gd_coef_smooth kp coef a, 0) else newton kp coef.

(** Coefficients, log-likelihood, penalised log-likelihood. *)
Notation gfit := (list R * ext * ext)%type.
Definition g_coef (st : gfit) : list R := fst (fst st).
Definition g_llk (st : gfit) : ext := snd (fst st).
Definition g_pen (st : gfit) : ext := snd st.
Definition bad (v : ext) : bool := isnan v || isinf v.

(** One step with its restart, gamm_solvers.py:8295-8327. *)
Definition gen_step (inner : nat) (kp : option (list nat)) (st : gfit) (a : R) (next : list R) : gfit * R :=
  let prev := pen_at kp (g_coef st) (g_llk st) in
  let (st1, a1) := correct_coef_step_gen_smooth (llk kp) (quad_at kp) (g_coef st) next (g_llk st) a in
  if (inner <=? 20)%nat && close (g_pen st1) prev && ((grad_only && (outer =? 0)%nat) || bad (llk kp next)) then
    let c := fst (fst (restart_coef (llk kp) (quad_at kp) (rvs (length (g_coef st1))) (g_coef st1) NaN NaN inner 0)) in
    ((c, llk kp c, pen_at kp c (llk kp c)), 1 / 10)
  else (st1, a1).

(** handle_drop_gsmm, gamm_solvers.py:6762-6813. *)
Definition handle_drop_gsmm (coef : list R) (keep : list nat) : gfit :=
  let c := take 0 coef keep in (c, llk (Some keep) c, pen_at (Some keep) c (llk (Some keep) c)).

(** check_drop_valid_gensmooth, gamm_solvers.py:6573-6623. *)
Definition gen_drop_valid (coef : list R) (keep : list nat) : bool :=
  let c := take 0 coef keep in negb (bad (pen_at (Some keep) c (llk_check keep c))).

(** The coefficients that may be dropped, gamm_solvers.py:8343-8361. *)
Definition may_be_dropped (n : nat) (drop : list nat) : list nat :=
  match extra_coef with None => drop | Some e => valid_drop n e drop end.

Notation keep_drop := (list nat * list nat)%type.
(** Line 8393 *)
Definition stop_now (eps : R) (inner : Z) : bool :=
  negb (rltb 0 eps) && (0 <? outer)%nat && (Z.of_nat min_inner - 1 <=? inner)%Z.

(** The loop, gamm_solvers.py:8272-8396.  [may_drop]: keep_drop is None and checked_identifiable is False; [ran]: number
    of coefficients in the last iteration, None if there was no iteration.  None: out of fuel. *)
Fixpoint gen_loop_inner (fuel inner : nat) (may_drop : bool) (kd : option keep_drop) (st : gfit) (a : R) (ran : option nat)
    : option (option keep_drop * gfit * option nat) :=
  match fuel with
  | O => None
  | S fuel =>
      if (max_inner <=? inner)%nat then Some (kd, st, ran)
      else
        let kp := option_map fst kd in
        let (next, eps) := proposed kp (g_coef st) a in
        let prev := pen_at kp (g_coef st) (g_llk st) in
        let ran' := Some (length (g_coef st)) in
        let (st', a') := gen_step inner kp st a next in
        if close (g_pen st') prev then
          if may_drop && identifies then
            let n := length (g_coef st') in
            let drop := may_be_dropped n (identify (g_coef st)) in
            let keep := keep_of n drop in
            if (length drop =? 0)%nat then Some (None, st', ran')
            else if negb (gen_drop_valid (g_coef st') keep) then Some (None, st', ran')
            else if (n <=? S (length drop))%nat then Some (None, st', ran')
            else
              let st'' := handle_drop_gsmm (g_coef st') keep in
              if stop_now eps (-1) then Some (Some (keep, drop), st'', ran')
              else gen_loop_inner fuel 0 false (Some (keep, drop)) st'' a' ran'
          else Some (kd, st', ran')
        else if stop_now eps (Z.of_nat inner) then Some (kd, st', ran')
        else gen_loop_inner fuel (S inner) may_drop kd st' a' ran'
  end.

(** What is returned, gamm_solvers.py:8514; the exceptions are those described in UpdModel (lines 8421-8426, 8514). *)
Record gen_updated := GenUpdated { gu_coef : list R; gu_llk : ext; gu_pen : ext; gu_kd : option keep_drop }.
Inductive gen_result := GOutOfFuel | GUnboundLocalError | GIndexError | GAttributeError | GDone (u : gen_updated).

(** update_coef_gen_smooth for methods other than "qEFS", gamm_solvers.py:7875-8514. *)
Definition update_coef_gen_smooth (fuel : nat) (coef : list R) (c_llk : ext) (kd : option keep_drop) : gen_result :=
  let out := match kd with
    | None => gen_loop_inner fuel 0 true None (coef, c_llk, NaN) (1 / 10) None
    | Some (keep, drop) => gen_loop_inner fuel 0 false kd (handle_drop_gsmm coef keep) (1 / 10) None
    end in
  match out with
  | None => GOutOfFuel
  | Some (_, _, None) => GUnboundLocalError
  | Some (None, st, Some _) => GDone (GenUpdated (g_coef st) (g_llk st) (g_pen st) None)
  | Some (Some (keep, drop), st, Some m) =>
      if grad_only then GAttributeError
      else if (length keep <? m)%nat then GIndexError
      else GDone (GenUpdated (pad 0 (length coef) keep (g_coef st)) (g_llk st) (g_pen st) (Some (keep, drop)))
  end.
End General.

(** ** Pairs stored by method "qEFS" *)
Section Pairs.
(** What L-BFGS-B leaves behind, steps and changes of the gradient it was given, oldest first: gamm_solvers.py:8072. *)
Variable S_times : list R -> list R.                      (* S_emb @ v *)

(** yks -= (S_emb @ sks.T).T, gamm_solvers.py:8109. *)
Definition remove_penalty (sks yks : list (list R)) : list (list R) :=
  map (fun p => vsub (snd p) (S_times (fst p))) (combine sks yks).

(** opt_raw: init, sk, yk. *)
Record store := mkStore { o_init : bool; o_s : list (list R); o_y : list (list R) }.

(** The loop at gamm_solvers.py:8168-8176. *)
Fixpoint merge (maxcor : nat) (s y : list (list R)) (new : list (list R * list R)) : list (list R) * list (list R) :=
  match new with
  | [] => (s, y)
  | (sk, yk) :: r =>
      let s' := s ++ [sk] in let y' := y ++ [yk] in
      if (maxcor <? length s')%nat then merge maxcor (tl s') (tl y') r else merge maxcor s' y' r
  end.

(** bfgs_options["maxcor"], gamm_solvers.py:8068; other options are only passed on. *)
Definition lookup (key : string) (opts : list (string * nat)) : option nat :=
  option_map snd (find (fun p => String.eqb (fst p) key) opts).

(** gamm_solvers.py:8061-8176 and 8401-8415 without fcols and without sampling; None: KeyError. *)
Definition store_pairs (opts : list (string * nat)) (old : store) (sks yks : list (list R)) : option store :=
  match lookup "maxcor" opts with
  | None => None
  | Some maxcor =>
      let yks := remove_penalty sks yks in
      if (length sks <? maxcor)%nat && o_init old
      then let (s, y) := merge maxcor (o_s old) (o_y old) (combine sks yks) in Some (mkStore true s y)
      else Some (mkStore true sks yks)
  end.
End Pairs.
(** init_qEFS_storage, gamm_solvers.py:7326-7331: one pair of length one, not to be used. *)
Definition init_store : store := mkStore false [[1]] [[1]].
