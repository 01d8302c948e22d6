(** How sample_mssm advances its chains and stores what they return: /repo/src/mssm/src/python/mcmc.py.

    Numbers are elements of an arbitrary type [A].  One call of advance_chain_mssm is an arbitrary function of the
    chain, the iteration at which it starts, the number of steps, max_j and the state of the chain (the seed is
    determined by the chain and the iteration); it returns a log-density and a state per step and the tuning
    variables epsilon, epsilonbar and Hbar.  An array of samples is a list (one entry per chain) of lists of rows. *)

From Coq Require Import List Arith Bool.
Import ListNotations.

Section Store.
Variable A : Type.

(** cLs, omegas, epsilons, epsilonbars and Hbars of one chain, mcmc.py:1074-1078. *)
Record cst := Cst { cL : A; omega : list A; epsilon : A; epsilonbar : A; Hbar : A }.
(** SamplerResult, custom_types.py:247-251. *)
Definition array := list (list (list A)).
Record samples := Samples { lps : array; coefs : array; lscales : option array; thetas : option array; rhos : option array }.
Definition block := (list (A * list A) * (A * A * A))%type.

Variables (zero : A) (mean : list A -> A).
Variables (n_coef n_scale n_theta n_lam : nat) (sample_rho auto_converge has_arviz : bool).
Variables (n_iter n_steps0 min_iter M_adapt max_j max_j_adapt : nat).
Variable advance : nat -> nat -> nat -> nat -> cst -> block.

(** check_convergence and the comparisons with min_ess and max_rhat, mcmc.py:1299-1324; its arguments are the five
    arrays. *)
Variable criteria : samples -> bool.

(** n_steps, mcmc.py:566. *)
Definition n_steps := Nat.max n_steps0 2.

(** arr[s : s + len(rows)] = rows. *)
Definition set_rows {B} (s : nat) (rows arr : list B) : list B := firstn s arr ++ rows ++ skipn (s + length rows) arr.
(** arr[:, s:e, :]. *)
Definition slice {B} (s e : nat) (rows : list B) : list B := skipn s (firstn e rows).

(** samples[chain, sidx:eidx, :] = part.T for all chains, :1217-1242; [f] selects the part of a step's result. *)
Definition put (f : A * list A -> list A) (sidx : nat) (arr : array) (outs : list block) : array :=
  map (fun ao => set_rows sidx (map f (fst (snd ao))) (fst ao)) (combine arr outs).

(** The parts of omegaprime, :1220-1242. *)
Definition coef_part (x : A * list A) := firstn n_coef (snd x).
Definition scale_part (x : A * list A) := firstn n_scale (skipn n_coef (snd x)).
Definition theta_part (x : A * list A) := firstn n_theta (skipn n_coef (snd x)).
Definition rho_part (x : A * list A) := skipn (n_coef + n_scale + n_theta) (snd x).
Definition llk_part (x : A * list A) := [fst x].

(** Storing one block of every chain, mcmc.py:1217-1242 (theta only if there is no scale). *)
Definition store (sidx : nat) (outs : list block) (sm : samples) : samples :=
  Samples (put llk_part sidx (lps sm) outs) (put coef_part sidx (coefs sm) outs)
          (if 0 <? n_scale then option_map (fun a => put scale_part sidx a outs) (lscales sm) else lscales sm)
          (if 0 <? n_scale then thetas sm
           else if 0 <? n_theta then option_map (fun a => put theta_part sidx a outs) (thetas sm) else thetas sm)
          (if sample_rho then option_map (fun a => put rho_part sidx a outs) (rhos sm) else rhos sm).

(** The state of a chain after a block, mcmc.py:1206-1214. *)
Definition after (s : cst) (o : block) : cst :=
  match o with (rows, (e, eb, h)) =>
    let l := last rows (cL s, omega s) in Cst (fst l) (snd l) e eb h end.

(** steps and max_j, mcmc.py:1143-1152, :1188. *)
Definition steps_at (iter : nat) : nat :=
  if iter <? M_adapt then (if iter + n_steps <=? M_adapt then n_steps else M_adapt - iter)
  else (if iter + n_steps <=? n_iter + M_adapt then n_steps else n_iter + M_adapt - iter).
Definition max_j_at (iter : nat) : nat := if iter <? M_adapt then max_j_adapt else max_j.

(** All chains are advanced, mcmc.py:1160-1214. *)
Definition advance_all (iter : nat) (cs : list cst) : list block :=
  map (fun ks => advance (fst ks) iter (steps_at iter) (max_j_at iter) (snd ks)) (combine (seq 0 (length cs)) cs).
Definition after_all (cs : list cst) (outs : list block) : list cst := map (fun so => after (fst so) (snd so)) (combine cs outs).

(** The step sizes are pooled at the end of the warm-up, mcmc.py:1249-1253. *)
Definition pool (cs : list cst) : list cst :=
  let e := mean (map epsilonbar cs) in map (fun s => Cst (cL s) (omega s) e e (Hbar s)) cs.

Definition cut (s e : nat) (a : array) : array := map (slice s e) a.

(** What check_convergence is given, mcmc.py:1263-1297: the log-densities are not cut in half. *)
Definition conv_samples (it : nat) (sm : samples) : samples :=
  let s := if auto_converge then it / 2 else 0 in
  Samples (cut 0 it (lps sm)) (cut s it (coefs sm))
          (if 0 <? n_scale then option_map (cut s it) (lscales sm) else None)
          (if 0 <? n_theta then option_map (cut s it) (thetas sm) else None)
          (if sample_rho then option_map (cut s it) (rhos sm) else None).

(** The samples returned after convergence, mcmc.py:1326-1357. *)
Definition second_half (it : nat) (sm : samples) : samples :=
  Samples (cut (it / 2) it (lps sm)) (cut (it / 2) it (coefs sm))
          (if 0 <? n_scale then option_map (cut (it / 2) it) (lscales sm) else lscales sm)
          (if 0 <? n_theta then option_map (cut (it / 2) it) (thetas sm) else thetas sm)
          (if sample_rho then option_map (cut (it / 2) it) (rhos sm) else rhos sm).

(** The conditions for stopping, mcmc.py:1261, :1320-1325. *)
Definition stops (it n_chains : nat) (sm : samples) : bool :=
  (2 * n_chains <? it / 4) && has_arviz && (2 * min_iter <=? it) && criteria (conv_samples it sm) && auto_converge.

(** while iter < (n_iter + M_adapt), mcmc.py:1140-1371; [fuel] bounds the number of passes. *)
Fixpoint loop (fuel iter : nat) (cs : list cst) (sm : samples) : samples :=
  match fuel with
  | O => sm
  | S fuel =>
      if iter <? n_iter + M_adapt then
        let outs := advance_all iter cs in
        let cs1 := after_all cs outs in
        let sm1 := if M_adapt <=? iter then store (iter - M_adapt) outs sm else sm in
        let iter1 := iter + steps_at iter in
        let cs2 := if iter1 =? M_adapt then pool cs1 else cs1 in
        if (M_adapt <? iter1) && stops (iter1 - M_adapt) (length cs) sm1
        then second_half (iter1 - M_adapt) sm1
        else loop fuel iter1 cs2 sm1
      else sm
  end.

(** The arrays at the start, mcmc.py:1121-1134. *)
Definition zeros (n_chains w : nat) : array := repeat (repeat (repeat zero w) n_iter) n_chains.
Definition fresh (n_chains : nat) : samples :=
  Samples (zeros n_chains 1) (zeros n_chains n_coef)
          (if 0 <? n_scale then Some (zeros n_chains n_scale) else None)
          (if 0 <? n_theta then Some (zeros n_chains n_theta) else None)
          (if sample_rho then Some (zeros n_chains n_lam) else None).

(** sample_mssm, mcmc.py:1121-1412, from the initial states of the chains. *)
Definition sample (inits : list cst) : samples :=
  loop (n_iter + M_adapt) 0 inits (fresh (length inits)).
End Store.
