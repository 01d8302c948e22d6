(** Assembling gradient and Hessian from derivatives with respect to linear predictors, splitting coefficient
    vectors by parameter, and dropping coefficients: gamm_solvers.py and models.py.

    Real numbers stand for floats. *)

From Coq Require Import List Bool Arith Reals.
Import ListNotations.
Local Open Scope R_scope.

(** ** deriv_transform_eta_beta, gamm_solvers.py:4356-4463 *)

(** A model matrix: number of columns, and entry by row and column. *)
Record matrix := Mat { ncols : nat; entry : nat -> nat -> R }.

(** Sums over the rows of a column times a column, gamm_solvers.py:4386, 4423. *)
Definition row_sum (n : nat) (f : nat -> R) : R := fold_right Rplus 0 (map f (seq 0 n)).

(** gamm_solvers.py:4377-4386, with [d1eta i r] element [r] of d1eta[i]. *)
Definition gradient (n : nat) (d1eta : nat -> nat -> R) (Xs : list matrix) : list R :=
  flat_map (fun etai => let X := nth etai Xs (Mat 0 (fun _ _ => 0)) in
    map (fun c => row_sum n (fun r => d1eta etai r * entry X r c)) (seq 0 (ncols X)))
  (seq 0 (length Xs)).

Notation triplet := (nat * nat * R)%type.

(** Triplets for one pair of parameters, gamm_solvers.py:4421-4457.  [stored c b] says whether the sparse row for
    coefficient [c] has an explicit entry in column [b] (columns counted in the whole block); it may have explicit
    zeros.  Indices are sorted. *)
Definition block_row (n : nat) (diag : bool) (hr_idx hc_idx : nat) (stored : nat -> nat -> bool) (d2 : nat -> R)
    (Xi Xj : matrix) (coefi : nat) : list triplet :=
  let lo := if diag then coefi else 0%nat in
  let cols := filter (stored coefi) (seq lo (ncols Xj - lo)) in
  let val c := row_sum n (fun r => d2 r * entry Xi r coefi * entry Xj r c) in
  match cols with
  | [] => []
  | c0 :: rest =>
      map (fun c => ((coefi + hr_idx)%nat, (c + hc_idx)%nat, val c)) cols ++
      (if diag && (c0 + hc_idx =? coefi + hr_idx)%nat
       then map (fun c => ((c + hc_idx)%nat, (coefi + hr_idx)%nat, val c)) rest
       else map (fun c => ((c + hc_idx)%nat, (coefi + hr_idx)%nat, val c)) cols)
  end.
Definition block (n : nat) (diag : bool) (hr_idx hc_idx : nat) (stored : nat -> nat -> bool) (d2 : nat -> R)
    (Xi Xj : matrix) : list triplet :=
  flat_map (block_row n diag hr_idx hc_idx stored d2 Xi Xj) (seq 0 (ncols Xi)).

(** The inner loop, gamm_solvers.py:4404-4459; returns mixed_idx and the triplets.  [d2meta k r] is element [r] of
    d2meta[k]; running past the end of that list (an exception) is not modelled. *)
Fixpoint inner_loop (n : nat) (stored : nat -> nat -> nat -> nat -> bool) (d2eta d2meta : nat -> nat -> R) (Xs : list matrix)
    (etai hr_idx mixed_idx hc_idx : nat) (etajs : list nat) : nat * list triplet :=
  match etajs with
  | [] => (mixed_idx, [])
  | etaj :: r =>
      let Xi := nth etai Xs (Mat 0 (fun _ _ => 0)) in
      let Xj := nth etaj Xs (Mat 0 (fun _ _ => 0)) in
      if (etaj <? etai)%nat then inner_loop n stored d2eta d2meta Xs etai hr_idx mixed_idx (hc_idx + ncols Xj) r
      else
        let d2 := if (etai =? etaj)%nat then d2eta etai else d2meta mixed_idx in
        let mixed_idx := if (etai =? etaj)%nat then mixed_idx else S mixed_idx in
        let here := block n (etai =? etaj)%nat hr_idx hc_idx (stored etai etaj) d2 Xi Xj in
        let '(mixed_idx, rest) := inner_loop n stored d2eta d2meta Xs etai hr_idx mixed_idx (hc_idx + ncols Xj) r in
        (mixed_idx, here ++ rest)
  end.

(** The outer loop, gamm_solvers.py:4397-4460. *)
Fixpoint outer_loop (n : nat) (stored : nat -> nat -> nat -> nat -> bool) (d2eta d2meta : nat -> nat -> R) (Xs : list matrix)
    (mixed_idx hr_idx : nat) (etais : list nat) : list triplet :=
  match etais with
  | [] => []
  | etai :: r =>
      let '(mixed_idx, here) := inner_loop n stored d2eta d2meta Xs etai hr_idx mixed_idx 0 (seq 0 (length Xs)) in
      here ++ outer_loop n stored d2eta d2meta Xs mixed_idx (hr_idx + ncols (nth etai Xs (Mat 0 (fun _ _ => 0)))) r
  end.

(** csc_array without a shape, gamm_solvers.py:4462: the shape is inferred from the largest indices; without
    entries this is a ValueError, here [None].  Entries with the same position are added. *)
Definition csc_array (T : list triplet) : option (nat * nat * (nat -> nat -> R)) :=
  match T with
  | [] => None
  | _ => Some (S (list_max (map (fun t => fst (fst t)) T)), S (list_max (map (fun t => snd (fst t)) T)),
              fun p q => fold_right Rplus 0 (map (fun t => if (fst (fst t) =? p)%nat && (snd (fst t) =? q)%nat then snd t else 0) T))
  end.
Definition hessian (n : nat) (stored : nat -> nat -> nat -> nat -> bool) (d2eta d2meta : nat -> nat -> R) (Xs : list matrix)
    : option (nat * nat * (nat -> nat -> R)) :=
  csc_array (outer_loop n stored d2eta d2meta Xs 0 0 (seq 0 (length Xs))).

(** ** Splitting coefficient vectors *)

(** np.split with a list of positions, as called in models.py:302. *)
Fixpoint np_split_from {A} (prev : nat) (l : list A) (idx : list nat) : list (list A) :=
  match idx with
  | [] => [skipn prev l]
  | i :: r => firstn (i - prev) (skipn prev l) :: np_split_from i l r
  end.
Definition np_split {A} (l : list A) (idx : list nat) : list (list A) := np_split_from 0 l idx.

(** Assignment to an element of a list. *)
Fixpoint set_nth {A} (i : nat) (v : A) (l : list A) : list A :=
  match l, i with
  | [], _ => []
  | _ :: r, O => v :: r
  | x :: r, S i => x :: set_nth i v r
  end.

(** models.py:1047-1054, 1069-1073 and, without extra coefficients, 2057, 2066-2070 (there the number of
    parameters is that of the family, which is the number of formulas). *)
Definition coef_split_idx (form_n_coef : list nat) (extra_coef : option nat) : list nat :=
  let with_extra := form_n_coef ++ match extra_coef with Some e => [e] | None => [] end in
  let idx := removelast with_extra in
  if (1 <? length form_n_coef)%nat then
    fold_left (fun l i => set_nth i (nth i l 0 + nth (i - 1) l 0)%nat l) (seq 1 (length idx - 1)) idx
  else idx.

(** get_pars, models.py:262-314, of a fitted model.  [ValueError]: the index is too large. *)
Inductive outcome (A : Type) := ValueError | Returned (a : A).
Arguments ValueError {A}. Arguments Returned {A} a.
Record model (A : Type) := Model { form_n_coef : list nat; coef_idx_per_term : list (list (list nat)); extra : option nat; coef : list A; split_idx : list nat }.
Arguments Model {A}. Arguments form_n_coef {A}. Arguments coef_idx_per_term {A}. Arguments extra {A}. Arguments coef {A}. Arguments split_idx {A}.
Definition get_pars {A} (d : A) (m : model A) (par term : option nat) : outcome (list A) :=
  let n_formulas := length (form_n_coef m) in
  match par with
  | None => Returned (coef m)
  | Some par =>
      let has_extra := match extra m with Some _ => true | None => false end in
      if (n_formulas + (if has_extra then 1 else 0) <=? par)%nat then ValueError
      else
        let sub_coef := if (1 <? n_formulas)%nat || has_extra then nth par (np_split (coef m) (split_idx m)) [] else coef m in
        match term with
        | None => Returned sub_coef
        | Some term =>
            if (par =? n_formulas)%nat then Returned sub_coef
            else Returned (map (fun k => nth k sub_coef d) (nth term (nth par (coef_idx_per_term m) []) []))
        end
  end.

(** ** Dropping coefficients *)

(** The coefficients to keep given those to drop, gamm_solvers.py:4806-4812, 4903, 8354-8356. *)
Definition keep_of (n : nat) (drop : list nat) : list nat :=
  filter (fun c => negb (existsb (Nat.eqb c) drop)) (seq 0 n).
(** Coefficients of the log-likelihood outside of formulas are not dropped, gamm_solvers.py:8351-8353. *)
Definition valid_drop (n extra_coef : nat) (drop : list nat) : list nat :=
  filter (fun dp => (dp <? n - extra_coef)%nat) drop.

(** drop_terms_X, gamm_solvers.py:4932-4964, with matrices as lists of columns; [None] in the list is a matrix that
    was not built, and the result [None] the AttributeError it leads to. *)
Fixpoint drop_terms_loop {C} (d : C) (keep : list nat) (n_Xs Xi start_idx : nat) (last : nat) (Xs : list (option (list C)))
    : option (list (list C) * list nat) :=
  match Xs with
  | [] => Some ([], [])
  | None :: _ => None
  | Some X :: r =>
      let end_idx := (start_idx + length X)%nat in
      let keep_X := map (fun cf => (cf - start_idx)%nat) (filter (fun cf => (start_idx <=? cf)%nat && (cf <? end_idx)%nat) keep) in
      let X' := map (fun k => nth k X d) keep_X in
      let split := if (Xi =? 0)%nat then [length X']
                   else if (Xi <? n_Xs - 1)%nat then [(length X' + last)%nat] else [] in
      match drop_terms_loop d keep n_Xs (S Xi) (start_idx + length X) (hd last split) r with
      | None => None
      | Some (new_Xs, split_idx) => Some (X' :: new_Xs, split ++ split_idx)
      end
  end.
Definition drop_terms_X {C} (d : C) (Xs : list (option (list C))) (keep : list nat) : option (list (list C) * list nat) :=
  drop_terms_loop d keep (length Xs) 0 0 0 Xs.

(** Fancy indexing of a vector, gamm_solvers.py:4999, 5079, 6603, 6799. *)
Definition take {A} (d : A) (l : list A) (keep : list nat) : list A := map (fun k => nth k l d) keep.

(** The parts of check_drop_valid_gensmooth that prepare the call of the log-likelihood, gamm_solvers.py:6602-6610:
    coefficients, split positions, matrices. *)
Definition check_drop {A C} (da : A) (d : C) (coef : list A) (Xs : list (option (list C))) (keep : list nat) (extra_coef : option nat)
    : option (list A * list nat * list (list C)) :=
  match drop_terms_X d Xs keep with
  | None => None
  | Some (rXs, idx) =>
      let idx := match extra_coef with None => idx | Some _ => idx ++ [(length (last rXs []) + last idx 0)%nat] end in
      Some (take da coef keep, idx, rXs)
  end.
(** The same for handle_drop_gsmm, gamm_solvers.py:6799-6803, and handle_drop_gammlss, gamm_solvers.py:5078-5083. *)
Definition handle_drop {A C} (da : A) (d : C) (coef : list A) (Xs : list (option (list C))) (keep : list nat)
    : option (list A * list nat * list (list C)) :=
  match drop_terms_X d Xs keep with
  | None => None
  | Some (rXs, idx) => Some (take da coef keep, idx, rXs)
  end.

(** full_coef = zeros; full_coef[keep] = coef, gamm_solvers.py:5343, 5452, 5482, 8265, 8380, 8419. *)
Definition pad {A} (zero : A) (n : nat) (keep : list nat) (coef : list A) : list A :=
  fold_left (fun l p => set_nth (fst p) (snd p) l) (combine keep coef) (repeat zero n).

(** Rows and columns of the triplets of a matrix replaced by the kept indices, gamm_solvers.py:5484-5489, 5540-5545, 5557-5571,
    8421-8426, 8481-8486, 8498-8512. *)
Definition pad_triplets (keep : list nat) (T : list triplet) : list triplet :=
  map (fun t => (nth (fst (fst t)) keep 0%nat, nth (snd (fst t)) keep 0%nat, snd t)) T.
