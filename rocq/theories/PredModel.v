(** Predictions and their intervals: models.py:1319-1592, utils.py:1541-1639.

    Real numbers stand for floats.  Sparse matrices are functions of row and column. *)

From Coq Require Import List Bool Arith Reals.
From Verif Require Import Ext AsmModel FormModel.
Import ListNotations.
Local Open Scope R_scope.

(** Rows, columns and entries. *)
Record array := Array { a_rows : nat; a_cols : nat; at_ : nat -> nat -> R }.

Definition sum_to (n : nat) (f : nat -> R) : R := fold_right Rplus 0 (map f (seq 0 n)).

(** X @ Y and X @ v; [None]: dimension mismatch. *)
Definition matmul (X Y : array) : option array :=
  if (a_cols X =? a_rows Y)%nat then Some (Array (a_rows X) (a_cols Y) (fun r c => sum_to (a_cols X) (fun k => at_ X r k * at_ Y k c)))
  else None.
Definition matvec (X : array) (v : list R) : option (list R) :=
  if (a_cols X =? length v)%nat then Some (map (fun r => sum_to (a_cols X) (fun c => at_ X r c * nth c v 0)) (seq 0 (a_rows X)))
  else None.
Definition transpose (X : array) : array := Array (a_cols X) (a_rows X) (fun r c => at_ X c r).
Definition scaled (X : array) (s : R) : array := Array (a_rows X) (a_cols X) (fun r c => at_ X r c * s).
(** X - Y for sparse arrays; [None]: inconsistent shapes. *)
Definition minus (X Y : array) : option array :=
  if (a_rows X =? a_rows Y)%nat && (a_cols X =? a_cols Y)%nat then Some (Array (a_rows X) (a_cols X) (fun r c => at_ X r c - at_ Y r c))
  else None.
(** lvi[:, idx] and predi_mat[:, use_post]. *)
Definition columns (X : array) (idx : list nat) : array := Array (a_rows X) (length idx) (fun r c => at_ X r (nth c idx 0%nat)).

Section Predict.
(** abs(x) > tol in the term builders. *)
Variable big : R -> bool.
(** scp.stats.norm.ppf(1 - (alpha / 2)). *)
Variable ppf : R -> R.

(** What is used of a fitted model: formulas with their variables, all coefficients, lvi, scale, coef_split_idx and
    has_extra_coef (models.py:235-258). *)
Record fitted := Fitted {
  formulas : list (env * list (term R)); coefs : list R; lvi : array; scale : R;
  coef_split : list nat; has_extra_coef : bool }.

(** New data after encode_data: covariates by row and lengths of the series. *)
Notation data := (frame R * list nat)%type.

(** build_sparse_matrix_from_formula for new data, models.py:1445-1460. *)
Definition predi_mat (m : fitted) (par : nat) (use_terms : option (list nat)) (dat : data) : option array :=
  match nth_error (formulas m) par with
  | None => None
  | Some (e, terms) =>
      match build_sparse R 0 1 Rplus Rmult Rminus big e (fst dat) (snd dat) false terms use_terms with
      | None => None
      | Some (ts, ci) => Some (Array (n_y (fst dat)) ci (FormModel.entry R 0 Rplus ts))
      end
  end.

(** Coefficients and columns of lvi of one parameter, models.py:1412-1421, 1567-1576. *)
Definition par_coef (m : fitted) (par : nat) : list R :=
  if (1 <? length (formulas m))%nat || has_extra_coef m then nth par (np_split (coefs m) (coef_split m)) [] else coefs m.
Definition par_lvi (m : fitted) (par : nat) : array :=
  if (1 <? length (formulas m))%nat || has_extra_coef m
  then columns (lvi m) (nth par (np_split (seq 0 (length (coefs m))) (coef_split m)) []) else lvi m.

(** b, models.py:1468-1470, 1582-1584. *)
Definition half_width (m : fitted) (par : nat) (X : array) (alpha : R) : option (list R) :=
  match matmul X (transpose (par_lvi m par)) with
  | None => None
  | Some A =>
      match matmul A (par_lvi m par) with
      | None => None
      | Some B =>
          match matmul (scaled B (scale m)) (transpose X) with
          | None => None
          | Some c => Some (map (fun r => ppf alpha * sqrt (at_ c r r)) (seq 0 (a_rows X)))
          end
      end
  end.

(** GSMM.predict with ci=True and without whole_interval, models.py:1319-1480; [None]: an exception.  That a variable of
    the formula is missing in the new data (models.py:1401-1409) is not modelled. *)
Definition predict (m : fitted) (par : nat) (use_terms : option (list nat)) (dat : data) (alpha : R)
    : option (list R * array * list R) :=
  match predi_mat m par use_terms dat with
  | None => None
  | Some X =>
      match matvec X (par_coef m par), half_width m par X alpha with
      | Some pred, Some b => Some (pred, X, b)
      | _, _ => None
      end
  end.

(** GSMM.predict_diff without whole_interval, models.py:1482-1592. *)
Definition predict_diff (m : fitted) (par : nat) (dat1 dat2 : data) (use_terms : option (list nat)) (alpha : R)
    : option (list R * list R) :=
  match predict m par use_terms dat1 alpha, predict m par use_terms dat2 alpha with
  | Some (_, pmat1, _), Some (_, pmat2, _) =>
      match minus pmat1 pmat2 with
      | None => None
      | Some pmat_diff =>
          match matvec pmat_diff (par_coef m par), half_width m par pmat_diff alpha with
          | Some diff, Some b => Some (diff, b)
          | _, _ => None
          end
      end
  | _, _ => None
  end.
End Predict.

(** ** adjust_CI *)

Section Adjust.
(** np.quantile(l, 1 - alpha) of a list without NaN. *)
Variable quantile : R -> list ext -> ext.

(** sample_post with deviations=True, models.py:1232-1317, utils.py:635-665: one column per draw, from independent normal
    numbers [z]. *)
Definition sample_post (lvi : array) (scale : R) (use_post : option (list nat)) (z : array) : option array :=
  let Cs := scaled (transpose lvi) (sqrt scale) in
  match use_post with
  | None => matmul Cs z
  | Some use => matmul (transpose (columns (transpose Cs) use)) z
  end.

(** Floating point x / y for x >= 0, maximum and product: NaN propagates. *)
Definition ediv (x y : R) : ext :=
  if Req_EM_T y 0 then (if Req_EM_T x 0 then NaN else PInf) else Fin (x / y).
Definition emax (a b : ext) : ext :=
  match a, b with
  | NaN, _ | _, NaN => NaN
  | PInf, _ | _, PInf => PInf
  | MInf, x | x, MInf => x
  | Fin x, Fin y => Fin (Rmax x y)
  end.
Definition emul (x : R) (q : ext) : ext :=
  match q with
  | Fin y => Fin (x * y)
  | NaN => NaN
  | _ => if Req_EM_T x 0 then NaN else if rltb 0 x then q else match q with PInf => MInf | _ => PInf end
  end.
Definition np_max (l : list ext) : ext := match l with [] => NaN | x :: r => fold_left emax r x end.
Definition np_quantile (alpha : R) (l : list ext) : ext := if existsb isnan l then NaN else quantile alpha l.

(** adjust_CI, utils.py:1541-1639.  Returns the adjusted half widths and what the array [b] holds afterwards, since
    b *= bmadq works in place. *)
Definition adjust_CI (lvi : array) (scale : R) (z : array) (b : list R) (X : array) (use_terms : option (list nat))
    (alpha : R) : option (list ext * list ext) :=
  let use_post := match use_terms with
                  | None => None
                  | Some _ => Some (filter (fun c => if Req_EM_T (sum_to (a_rows X) (fun r => at_ X r c)) 0 then false else true)
                                           (seq 0 (a_cols X)))
                  end in
  match sample_post lvi scale use_post z with
  | None => None
  | Some post =>
      match matmul (match use_post with None => X | Some use => columns X use end) post with
      | None => None
      | Some F =>
          let fpost r s := ediv (Rabs (at_ F r s)) (nth r b 0) in
          let bmadq := np_quantile alpha (map (fun s => np_max (map (fun r => fpost r s) (seq 0 (a_rows F)))) (seq 0 (a_cols F))) in
          let b' := map (fun x => emul x bmadq) b in
          Some (b', b')
      end
  end.
End Adjust.
