(** The square root of the total penalty used when models are fitted by a QR decomposition
    (compute_S_emb_pinv_det with root=True, gamm_solvers.py).  Everything else this function
    computes is modelled in PenModel. *)

From Coq Require Import List Arith Bool.
From Verif Require Import PenModel.
Import ListNotations.

Set Implicit Arguments.

Section Root.
Variable K : Type.
Variables (k0 : K) (kadd kmul : K -> K -> K).
(** math.sqrt, gamm_solvers.py:245 *)
Variable ksqrt : K -> K.
(** Lines 339-345: U @ diag(sqrt of the eigenvalues) of the summed block of a group, scipy's eigh;
    eigenvalues below the threshold count as zero.  The first argument is the block's size. *)
Variable eroot : nat -> mat K -> mat K.

(** A group of penalties with the same start index and its entry of DJs, gamm_solvers.py:218-230. *)
Record rgroup := mkRgroup { r_group : group K; r_D : option (mat K) }.

(** gamm_solvers.py:255-269: a further penalty with this start index; DJs[idx_match[0]] = None. *)
Definition root_add (gs : list rgroup) (p : lterm K) : option (list rgroup) :=
  match group_add kadd kmul (map r_group gs) p with
  | None => None
  | Some gs' =>
      Some (map (fun x => mkRgroup (fst x)
                            (if g_start (fst x) =? t_start p then None else snd x))
                (combine gs' (map r_D gs)))
  end.

(** The loop gamm_solvers.py:233-269; a first penalty enters DJs as D_J_emb * sqrt(lam), line 245. *)
Fixpoint root_groups (first : bool) (mx : nat) (gs : list rgroup) (ps : list (lterm K))
  : option (list rgroup) :=
  match ps with
  | [] => Some gs
  | p :: ps' =>
      if first || (mx <? t_start p) then
        root_groups false (t_start p)
          (gs ++ [mkRgroup (mkGroup (mscale kmul (t_lam p) (t_S p)) (t_dim p) 1 (t_rep p) (t_start p))
                           (Some (mscale kmul (ksqrt (t_lam p)) (t_Demb p)))]) ps'
      else
        match root_add gs p with
        | None => None
        | Some gs' => root_groups false mx gs' ps'
        end
  end.

(** S_root_singles, gamm_solvers.py:289-295: the sum of the roots of groups of one penalty.  (DJs
    holds a matrix for each of them.) *)
Fixpoint root_singles (gs : list rgroup) : mat K :=
  match gs with
  | [] => mzero k0
  | g :: gs' =>
      if g_terms (r_group g) =? 1
      then madd kadd (match r_D g with Some D => D | None => mzero k0 end) (root_singles gs')
      else root_singles gs'
  end.

(** The triplets S_root_elements, S_root_rows, S_root_cols, gamm_solvers.py:338-369 and 380-382;
    [c] is cIndexPinv. *)
Fixpoint root_blocks (c : nat) (gs : list rgroup) : mat K :=
  match gs with
  | [] => mzero k0
  | g :: gs' =>
      let h := r_group g in
      let c' := c + g_dim h * g_rep h in
      if g_terms h =? 1 then root_blocks c' gs'
      else madd kadd (blocks_at k0 kadd (g_rep h) c (g_dim h) (eroot (g_dim h) (g_S h)))
                (root_blocks c' gs')
  end.

(** S_root as returned by compute_S_emb_pinv_det(…, root=True), gamm_solvers.py:185-413.  None: an
    exception while the penalties are grouped. *)
Definition compute_S_root (merged : list (lterm K)) : option (mat K) :=
  match root_groups true 0 [] (split_shared_penalties merged) with
  | None | Some [] => None
  | Some ((g0 :: _) as gs) =>
      Some (madd kadd (root_blocks (g_start (r_group g0)) gs) (root_singles gs))
  end.
End Root.
