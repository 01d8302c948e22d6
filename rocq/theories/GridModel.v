(** Candidates for smoothing parameters in estimateVp and correct_VB.
    Source: /repo/src/mssm/src/python/utils.py.

    Smoothing parameters are exact rationals; infinite draws are None.  Random draws (already exponentiated), the REML
    score of a candidate and the points visited by finite differencing are oracles. *)
From Coq Require Import List Arith ZArith QArith Qabs Bool Lia.
Import ListNotations.
Local Open Scope nat_scope.

(** A returned value or a raised exception. *)
Inductive outcome (A : Type) : Type := Done (a : A) | Raised.
Arguments Done {A}. Arguments Raised {A}.

(** ** Shape of the draws *)

(** What scipy returns: the n_est x d array of draws without axes of length one; a single number is no array. *)
Inductive draws := Scalar (x : option Q) | Vector (l : list (option Q)) | Matrix (rows : list (list (option Q))).
Definition squeeze (n_est d : nat) (rows : list (list (option Q))) : draws :=
  match n_est, d with
  | 1, 1 => Scalar (hd None (concat rows))
  | 1, _ => Vector (concat rows)
  | _, 1 => Vector (concat rows)
  | _, _ => Matrix rows
  end.

(** p_sample[np.isinf(p_sample)] = b, utils.py:2618, :2810, :4027, :4251: numbers do not support item assignment. *)
Definition finite (b : Q) (x : option Q) : Q := match x with None => b | Some v => v end.
Inductive array := Arr1 (l : list Q) | Arr2 (rows : list (list Q)).
Definition set_inf (b : Q) (p : draws) : outcome array :=
  match p with
  | Scalar _ => Raised
  | Vector l => Done (Arr1 (map (finite b) l))
  | Matrix rows => Done (Arr2 (map (map (finite b)) rows))
  end.

(** The reshape to n_est rows, utils.py:2620-2634, :2812-2826, :4029-4043, :4253-4267; the number of entries must fit. *)
Definition reshape (n_est d : nat) (p : array) : outcome (list (list Q)) :=
  let flat := match p with Arr1 l => l | Arr2 rows => concat rows end in
  if d =? 1 then if length flat =? n_est then Done (map (fun x => [x]) flat) else Raised
  else if n_est =? 1 then Done [flat]
  else match p with Arr1 l => Raised | Arr2 rows => Done rows end.

Definition p_sample (n_est d : nat) (b : Q) (rows : list (list (option Q))) : outcome (list (list Q)) :=
  match set_inf b (squeeze n_est d rows) with
  | Raised => Raised
  | Done p => reshape n_est d p
  end.

(** ** The current parameters among the candidates *)

(** np.max(np.abs(row - lams)) < minDiag. *)
Definition near (minDiag : Q) (lams row : list Q) : bool :=
  forallb (fun p => negb (Qle_bool minDiag (Qabs (fst p - snd p)))) (combine row lams).

(** utils.py:2636-2644, :2829-2836, :4045-4054, :4270-4278; [lams] are the parameters of rPen at this point. *)
Definition with_current (minDiag : Q) (lams : list Q) (rows : list (list Q)) : list (list Q) :=
  if existsb (near minDiag lams) rows then rows else lams :: rows.

(** for peni in range(len(rho)): rPen[peni].lam = ..., utils.py:2498-2499, :2839-2840, :4281-4282. *)
Fixpoint overwrite (lams new : list Q) : list Q :=
  match lams, new with
  | _ :: r, x :: s => x :: overwrite r s
  | r, [] => r
  | [], _ => []
  end.

(** The parameters of rPen after finite differencing visited the points [visited] (utils.py:2496-2528), or without. *)
Definition lams_before (fidiff : bool) (visited : list (list Q)) (lams : list Q) : list Q :=
  if fidiff then fold_left overwrite visited lams else lams.

(** The candidates of estimateVp with grid_type JJJ2, utils.py:2448, :2494-2528, :2604-2644, :2806-2836. *)
Definition candidates (fidiff : bool) (visited : list (list Q)) (lams : list Q) (minDiag b : Q) (n_est : nat)
  (rows : list (list (option Q))) : outcome (list (list Q)) :=
  match p_sample n_est (length lams) b rows with
  | Raised => Raised
  | Done p => Done (with_current minDiag (lams_before fidiff visited lams) p)
  end.

(** ** Scores of the candidates *)
Section Scores.
Variable S : Type.
(** The computation inside the try block of compute_REML_candidate_GSMM (or compute_reml_candidate_GAMM); None if it
    raises. *)
Variable compute : list Q -> option S.

(** utils.py:2001-2147: the handler returns total_edf, which has no value yet, so that it raises itself. *)
Definition candidate (lams : list Q) : outcome S :=
  match compute lams with Some s => Done s | None => Raised end.

(** One process, utils.py:2838-2880: [lams] is the state of rPen; [general] for families that are not of class Family
    (failing candidates are skipped). *)
Fixpoint serial (general : bool) (lams : list Q) (rows : list (list Q)) (remls : list S) (rGrid : list (list Q))
  : outcome (list S * list (list Q)) :=
  match rows with
  | [] => Done (remls, rGrid)
  | ps :: r =>
      let lams' := overwrite lams ps in
      match candidate lams' with
      | Done s => serial general lams' r (remls ++ [s]) (rGrid ++ [ps])
      | Raised => if general then serial general lams' r remls rGrid else Raised
      end
  end.

(** Several processes, utils.py:2740-2801: every candidate has its own copy of rPen; an exception in a process is raised
    by starmap. *)
Fixpoint starmap (l : list (list Q)) : outcome (list S) :=
  match l with
  | [] => Done []
  | x :: r => match candidate x with
              | Raised => Raised
              | Done s => match starmap r with Raised => Raised | Done t => Done (s :: t) end
              end
  end.
Definition parallel (lams : list Q) (rows : list (list Q)) : outcome (list S * list (list Q)) :=
  match starmap (map (overwrite lams) rows) with
  | Raised => Raised
  | Done remls => Done (remls, rows)
  end.

(** remls and rGrid, utils.py:2598-2880; softmax of no scores at all raises (:2887). *)
Definition scores (n_c : nat) (general : bool) (lams : list Q) (rows : list (list Q)) : outcome (list S * list (list Q)) :=
  match (if 1 <? n_c then parallel lams rows else serial general lams rows [] []) with
  | Raised => Raised
  | Done ([], _) => Raised
  | Done r => Done r
  end.
End Scores.
