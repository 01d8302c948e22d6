(** Reference distributions and p-values of approx_smooth_p_values, utils.py:1096-1538, the rows it uses, and the degrees of
    freedom it and print_smooth_terms pick for one parameter of a distribution, utils.py:808-1023. *)
From Coq Require Import List Arith ZArith Reals Lia Lra.
Import ListNotations.
Local Open Scope bool_scope.
Local Open Scope R_scope.

(** int(x) and the cast of a double to a C int: towards zero, utils.py:1293 and davies.cpp:425 (forcecast). *)
Definition trunc (x : R) : Z := if Rle_dec 0 x then Int_part x else (- Int_part (- x))%Z.

(** A weighted sum of independent chi-square variables: weight and degrees of freedom of each. *)
Definition mix := list (R * Z).

(** The weights of the two last variables, utils.py:1369-1370. *)
Definition v1 (v : R) : R := (v + 1 + sqrt (1 - v * v)) / 2.
Definition v2 (v : R) : R := v + 1 - v1 v.

(** n and lb without an estimated scale, utils.py:1464-1472; the same lines at :1382-1390. *)
Definition chi_mix (k : Z) (v : R) : mix :=
  (if (1 <? k)%Z then [(1, (k - 2 + 1)%Z)] else []) ++ [(v1 v, 1%Z); (v2 v, 1%Z)].
(** n and the weights with an estimated scale, utils.py:1382-1395, 1398-1399; n arrives at Davies' routine as an array of
    int, davies.cpp:425. *)
Definition f_mix (k : Z) (v rs_df Tr : R) : mix := chi_mix k v ++ [(- Tr / rs_df, trunc rs_df)].

(** The 2 x 2 block the statistic uses, utils.py:1329, 1350: [[1, p], [p, v]] with p = (v (1 - v) / 2)^0.5. *)
Definition block (v : R) (i j : nat) : R :=
  match i, j with
  | O, O => 1
  | S O, S O => v
  | _, _ => sqrt (v * (1 - v) / 2)
  end.

Section PValue.
(** davies.daviesQF(lb, 0, n, c, 0, 2e-5, len(n), 20000): value and error code. *)
Variable davies : mix -> R -> R * Z.
(** Distribution functions of scipy: f.cdf(x, d1, d2), chi2.cdf(x, d), beta.cdf(x, a, b), gamma.cdf(x, a, scale=2). *)
Variable fcdf : R -> R -> R -> R.
Variable chi2cdf : R -> R -> R.
Variable betacdf : R -> R -> R -> R.
Variable gammacdf : R -> R -> R.

(** Whether the values of Davies are replaced, utils.py:1426, 1436 and :1490, 1500. *)
Definition fall_back (force : bool) (c1 c2 : Z) : bool :=
  ((0 <? c1)%Z || (0 <? c2)%Z || force) && negb ((c1 =? 2)%Z && (c2 =? 2)%Z).

(** The two p-values of a smooth for a model with estimated scale, utils.py:1317-1322 and :1373-1458. *)
Definition p_scale (force : bool) (r rs_df Tr1 Tr2 : R) : R * R :=
  let k := trunc r in
  let v := r - IZR k in
  if Req_EM_T v 0 then (1 - fcdf (Tr1 / IZR k) (IZR k) rs_df, 1 - fcdf (Tr2 / IZR k) (IZR k) rs_df)
  else
    let (q1, c1) := davies (f_mix k v rs_df Tr1) 0 in
    let (q2, c2) := davies (f_mix k v rs_df Tr2) 0 in
    if fall_back force c1 c2
    then let b T := betacdf ((r * (T / r) / rs_df) / (1 + (r * (T / r) / rs_df))) (r / 2) (rs_df / 2) in (1 - b Tr1, 1 - b Tr2)
    else (1 - q1, 1 - q2).

(** The two p-values otherwise, utils.py:1324-1326 and :1460-1512. *)
Definition p_known (force : bool) (r Tr1 Tr2 : R) : R * R :=
  let k := trunc r in
  let v := r - IZR k in
  if Req_EM_T v 0 then (1 - chi2cdf Tr1 (IZR k), 1 - chi2cdf Tr2 (IZR k))
  else
    let (q1, c1) := davies (chi_mix k v) Tr1 in
    let (q2, c2) := davies (chi_mix k v) Tr2 in
    if fall_back force c1 c2 then (1 - gammacdf Tr1 (r / 2), 1 - gammacdf Tr2 (r / 2))
    else (1 - Rmin q1 1, 1 - Rmin q2 1).

(** The reported p-value, utils.py:1292-1294, 1514, 1517-1524; [twopar] isinstance(model.family, Family) and
    model.family.twopar. *)
Definition p_value (twopar force : bool) (r rs_df Tr1 Tr2 : R) : R :=
  if (0 <? trunc r)%Z
  then let (p1, p2) := if twopar then p_scale force r rs_df Tr1 Tr2 else p_known force r Tr1 Tr2 in (p1 + p2) / 2
  else 1.
End PValue.

(** ** Degrees of freedom of one parameter of the distribution *)
(** start_index, dist_param and rep_sj * S_J.shape[1] of a penalty. *)
Record pen := { p_start : Z; p_par : nat; p_coef : R }.

(** utils.py:1205-1238; [edf] is model.term_edf or model.term_edf1, [None]: IndexError. *)
Fixpoint tested (par : nat) (edf : list R) (l : list pen) (prev : Z) (idx : nat) : option (list R) :=
  match l with
  | [] => Some []
  | p :: r =>
      if (prev <? p_start p)%Z then
        if (par <? p_par p)%nat then Some []
        else if (p_par p =? par)%nat then
          match nth_error edf idx with
          | Some e => option_map (cons (Rmin e (p_coef p))) (tested par edf r (p_start p) (idx + 1))
          | None => None
          end
        else tested par edf r (p_start p) (idx + 1)
      else tested par edf r prev idx
  end.
Definition test_edf (par : nat) (edf : list R) (l : list pen) : option (list R) := tested par edf l (-1) 0.

(** utils.py:873-889. *)
Fixpoint listed (par : nat) (edf : list R) (l : list pen) (prev : Z) (idx : nat) : option (list R) :=
  match l with
  | [] => Some []
  | p :: r =>
      if (par <? p_par p)%nat then Some []
      else if (prev <? p_start p)%Z then
        if (p_par p =? par)%nat then
          match nth_error edf idx with
          | Some e => option_map (cons e) (listed par edf r (p_start p) (idx + 1))
          | None => None
          end
        else listed par edf r (p_start p) (idx + 1)
      else listed par edf r prev idx
  end.
Definition list_edf (par : nat) (edf : list R) (l : list pen) : option (list R) := listed par edf l (-1) 0.

(** ** Rows used for a test *)
(** A Python number handed over as size: the default n_sel=1e5 of utils.py:1099 is a float. *)
Inductive pynum := PyInt (n : Z) | PyFloat (n : Z).
(** its value; the float is one of an integral value *)
Definition val (x : pynum) : Z := match x with PyInt n => n | PyFloat n => n end.
Definition default_n_sel : pynum := PyFloat 100000.

Section Rows.
Variable gen : Type.
(** np_gen.choice(n, size, replace=False): rows and the generator afterwards. *)
Variable choice : gen -> Z -> Z -> list Z * gen.
(** The rows of the matrix used for one smooth, utils.py:1276-1279; numpy refuses a float as size with a TypeError
    ([None]). *)
Definition rows_used (g : gen) (n_rows : Z) (n_sel : pynum) : option (list Z * gen) :=
  if (val n_sel <? n_rows)%Z
  then match n_sel with PyInt s => Some (choice g n_rows s) | PyFloat _ => None end
  else Some (map Z.of_nat (seq 0 (Z.to_nat n_rows)), g).
(** All smooths of the formula, one after the other, with the generator of utils.py:1178. *)
Fixpoint rows_all (g : gen) (n_rows : Z) (n_sel : pynum) (n_smooths : nat) : option (list (list Z)) :=
  match n_smooths with
  | O => Some []
  | S m =>
      match rows_used g n_rows n_sel with
      | Some (l, g') => option_map (cons l) (rows_all g' n_rows n_sel m)
      | None => None
      end
  end.
End Rows.
