(** Positions of penalties: specification. *)

From Coq Require Import List Bool Arith.
From Verif Require Import FormModel TileModel.
Import ListNotations.

Section Spec.
Variable K : Type.

Definition total (l : list nat) : nat := fold_right Nat.add 0 l.

(** Widths of the blocks of coefficients of a term: one block per level of the by-factor. *)
Definition blocks (e : env) (t : term K) (sp : pspec) : list nat :=
  let per v w := map w (seq 0 (length (levels e v))) in
  match t with
  | TI | TL _ => []
  | TIrf s => match i_by s with None => [i_term_coef s] | Some v => per v (fun _ => i_term_coef s) end
  | TF s =>
      let w k := f_term_coef s - match f_drop s with None => 0 | Some _ => ps_dropped sp k end in
      match f_by s with None => [w 0] | Some v => per v w end
  | TRi v => [length (levels e v)]
  | TRs vars b =>
      let n := length (snd (linear_info e vars false)) in
      match b with None => [n] | Some v => per v (fun _ => n) end
  end.

(** A penalty of a term that begins at coefficient [start] covers whole consecutive blocks, equally large
    ones if it is repeated. *)
Definition on_blocks (start : nat) (ws : list nat) (p : pen) : Prop :=
  exists a b c, ws = a ++ b ++ c /\ p_start p = start + total a /\ p_dim p * p_rep p = total b /\
    (p_rep p = 1 \/ b = repeat (p_dim p) (p_rep p)).

(** The coefficient is penalised by one of the penalties of the term. *)
Definition covered (ti : nat) (pens : list pen) (j : nat) : Prop :=
  exists p, In p pens /\ p_term p = ti /\ p_start p <= j < p_start p + p_dim p * p_rep p.

Definition penalised (t : term K) : bool :=
  match t with TI | TL _ => false | TIrf s => i_penalized s | TF s => f_penalized s | _ => true end.

(** A term as the constructors leave it: penalised smooths have a penalty, tensor smooths one per variable;
    factors have levels; the numbers of dropped coefficients add up, and only tensor smooths drop. *)
Definition spec_ok (e : env) (t : term K) (sp : pspec) : Prop :=
  match t with
  | TIrf s => 0 < ps_pens sp /\ match i_by s with None => True | Some v => levels e v <> [] end
  | TF s =>
      0 < ps_pens sp /\ f_vars s <> [] /\
      (1 < length (f_vars s) -> ps_pens sp = length (f_vars s) /\ ps_reparam sp = None) /\
      match f_by s with None => True | Some v => levels e v <> [] end /\
      match f_drop s with
      | None => True
      | Some l => 1 < length (f_vars s) /\ (forall k, ps_dropped sp k <= f_term_coef s) /\
                  total (map (ps_dropped sp) (seq 0 (match f_by s with None => 1 | Some v => length (levels e v) end))) = length l
      end
  | TRs _ (Some v) => levels e v <> []
  | _ => True
  end.
End Spec.
