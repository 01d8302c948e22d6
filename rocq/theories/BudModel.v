(** Columns that are differenced in the structured quasi-Newton method.
    Source: /repo/src/mssm/models.py (GSMM.fit).

    Formulas are reduced to what is read here; the draw of the random generator is a parameter. *)
From Coq Require Import List Arith ZArith QArith Qround Bool.
Import ListNotations.

(** A formula, models.py:1088-1100: terms in the order linear, impulse response, smooth, each with whether it is an fs term
    and its coef_idx_per_term; n_coef.  Random terms are not visited. *)
Record formula := { visited : list (bool * list nat); n_coef : nat }.
(** structured_qefs_budget: a list of columns, an int, or a float of at most 1 (larger floats fail in the draw). *)
Inductive budget := Columns (l : list nat) | Count (k : Z) | Part (q : Q).

(** fcols for all formulas, models.py:1086-1100; [start] is start_idx. *)
Definition of_formula (start : nat) (f : formula) : list nat :=
  flat_map (fun t : bool * list nat => if fst t then [] else map (fun c => (c + start)%nat) (snd t)) (visited f).
Fixpoint of_formulas (start : nat) (fs : list formula) : list nat * nat :=
  match fs with
  | [] => ([], start)
  | f :: r => let '(l, e) := of_formulas (start + n_coef f) r in (of_formula start f ++ l, e)
  end.
(** With the extra coefficients, models.py:1102-1104; [extra] is 0 without has_extra_coef. *)
Definition candidates (fs : list formula) (extra : nat) : list nat :=
  let '(l, e) := of_formulas 0 fs in l ++ map (fun c => (c + e)%nat) (seq 0 extra).

(** np.unique: sorted, without repetitions. *)
Fixpoint ins (c : nat) (l : list nat) : list nat :=
  match l with
  | [] => [c]
  | d :: r => if (c <? d)%nat then c :: l else if (c =? d)%nat then l else d :: ins c r
  end.
Definition unique (l : list nat) : list nat := fold_right ins [] l.

Section Select.
(** np_gen.choice(l, size=k, replace=False). *)
Variable choice : list nat -> nat -> list nat.

(** models.py:1106-1118 with cols_budget [b]; [ncoef] is len(coef). *)
Definition reduce (l : list nat) (b ncoef : nat) : option (list nat) :=
  let l' := if ((length l =? ncoef) && (length l <=? b))%nat then choice l (ncoef - 1)
            else if (b <? length l)%nat then choice l b else l in
  match l' with [] => None | _ => Some l' end.

(** fcols, models.py:1075-1122 for method qEFS and structured_qefs. *)
Definition fcols (bg : budget) (fs : list formula) (extra ncoef : nat) : option (list nat) :=
  option_map unique
    match bg with
    | Columns l => Some l
    | Count k => if (0 <? k)%Z then reduce (candidates fs extra) (Z.to_nat k) ncoef else None
    | Part q => if (negb (Qle_bool q 0))
                then let l := candidates fs extra in
                     reduce l (Nat.max 1 (Z.to_nat (Qfloor (q * inject_Z (Z.of_nat (length l)))))) ncoef
                else None
    end.
End Select.
