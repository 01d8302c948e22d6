(** Update vectors drawn again after fitting and what a fit returns (sampleHcoef and the end of
    solve_generalSmooth_sparse, gamm_solvers.py), and the checks at the start of GAMM.fit (models.py).
    Sources under /repo/src/mssm/src/python and /repo/src/mssm. *)
From Coq Require Import List ZArith Bool.
Import ListNotations.

Inductive outcome (A : Type) := Ret (a : A) | TypeErr | ValueErr.
Arguments Ret {A}. Arguments TypeErr {A}. Arguments ValueErr {A}.

Section Redraw.
(** Vectors, exact blocks of the Hessian (nHfd, IonHBB, onHBb), numbers. *)
Variables V B R : Type.
Variable sub : V -> V -> V.
(** nHfd @ s and P2 @ onHBb.T @ IonHBB @ onHBb @ P2.T @ s. *)
Variables exact cross : B -> V -> V.
Variable dot : V -> V -> R.
Variable inv : R -> R.
(** sample_ys_qefs with a seed (gamm_solvers.py:6918-7175): accepted vectors s, y with 1/(s'y); updates is their
    number.  The other arguments are the same in all calls. *)
Variable draw : Z -> list (V * V * R).
(** makepdd_fd2llk of the columns of family.jhessian at the estimate (gamm_solvers.py:7769-7784). *)
Variable block_at : B.

(** linopH: sk, yk and rho; nHfd and IonHBB; sample_hessian. *)
Record store := mkStore { st_vecs : list (V * V * R); st_block : option B; st_sampled : bool }.

(** calculate_edf and calculate_term_edf for a storage, gamm_solvers.py:7858-7870. *)
Variable edf : store -> R * list R.

(** The loop, gamm_solvers.py:7817-7835, with [tries] attempts left; returns the last draw.  seed += 1 raises for None
    (which numpy accepts as a seed: [draw 0] stands for such a draw). *)
Fixpoint attempts (tries : nat) (min : Z) (seed : option Z) (updates : Z) (last : list (V * V * R))
    : outcome (Z * list (V * V * R)) :=
  match tries with
  | O => Ret (updates, last)
  | S k => if (updates <? min)%Z then
             match seed with
             | None => TypeErr
             | Some s => let d := draw s in attempts k min (Some (s + 1)%Z) (Z.of_nat (length d)) d
             end
           else Ret (updates, last)
  end.

(** yks -= ...; rhos = 1 / sum(sks * yks), gamm_solvers.py:7838-7845. *)
Definition correct (p : V * V * R) : V * V * R :=
  let '(s, y, _) := p in
  let y' := sub (sub y (exact block_at s)) (cross block_at s) in
  (s, y', inv (dot s y')).

(** sampleHcoef, gamm_solvers.py:7681-7872: [fcols] whether there are exact columns, [given] whether S_emb is given,
    [pens] the number of penalties.  Returns storage, updates, total and term-wise edf. *)
Definition sampleHcoef (st : store) (fcols given : bool) (pens : nat) (make_psd : bool) (n_coef : R) (min : Z)
    (seed : option Z) : outcome (store * Z * option R * option (list R)) :=
  let total := if given then None else if Nat.ltb 0 pens then None else Some n_coef in
  match attempts 30 min seed (-1) [] with
  | Ret (updates, last) =>
      if (0 <? updates)%Z then
        let vecs := if fcols then map correct last else last in
        let st' := mkStore vecs (if fcols then Some block_at else st_block st) true in
        if Nat.ltb 0 pens && make_psd then let '(t, e) := edf st' in Ret (st', updates, Some t, Some e)
        else Ret (st', updates, total, None)
      else Ret (st, updates, total, None)
  | TypeErr => TypeErr
  | ValueErr => ValueErr
  end.

(** The end of solve_generalSmooth_sparse, gamm_solvers.py:9592-9638: total and term-wise edf (model.edf, model.term_edf)
    and the storage (model.lvi_linop).  [total], [terms]: those of the last iteration; [control]: control_lambda in
    [1, 3] and outer > 0; [memory]: whether qEFS_final_memory_usage is given (by default it is 1, models.py:734). *)
Definition finish (qefs control memory fcols : bool) (pens : nat) (n_coef total : R) (terms : list R) (st : store)
    (outer : Z) : outcome (option R * option (list R) * store) :=
  let total0 := if Nat.ltb 0 pens then Some total else Some n_coef in
  let terms0 := if Nat.ltb 0 pens then Some terms else None in
  if qefs && (control || memory) then
    match sampleHcoef st fcols true pens true n_coef 0 (Some outer) with
    | Ret (st', updates, total2, terms2) =>
        if (0 <? updates)%Z then Ret (total2, terms2, st') else Ret (total0, terms0, st')
    | TypeErr => TypeErr
    | ValueErr => ValueErr
    end
  else Ret (total0, terms0, st).
End Redraw.
Arguments mkStore {V B R}. Arguments st_vecs {V B R}. Arguments st_block {V B R}. Arguments st_sampled {V B R}.

(** GAMM.fit, models.py:3078-3130: penalties of an earlier fit ([None] before the first), those of the formula, restart,
    max_inner, whether rho is given.  Returns the number of penalties and max_inner handed to the solver. *)
Definition gamm_start (earlier : option nat) (formula_pens : nat) (restart : bool) (max_inner : option nat) (rho : bool)
    : outcome (nat * nat) :=
  let penalties := if restart then earlier else Some formula_pens in
  match (match max_inner with
         | Some m => Ret m
         | None => if rho then Ret 1
                   else match penalties with
                        | None => TypeErr            (* len(None), line 3090 *)
                        | Some n => Ret (if Nat.eqb n 0 then 1 else 500)
                        end
         end) with
  | Ret m =>
      match penalties with
      | None => ValueErr                             (* line 3096 *)
      | Some n =>
          let m := if Nat.ltb 1 m && rho then 1 else m in
          let m := if Nat.ltb 1 m && Nat.eqb n 0 then 1 else m in
          Ret (n, m)
      end
  | TypeErr => TypeErr
  | ValueErr => ValueErr
  end.
