(** Preparing and resuming the fit of a general model.
    Source: /repo/src/mssm/models.py (GSMM.get_ys, GSMM.get_mmat, GSMM.fit, GAMMLSS.fit) and the last step of
    /repo/src/mssm/src/python/gamm_solvers.py (solve_generalSmooth_sparse).

    Exceptions are values.  Random draws are oracles.  Shares of numbers are exact rationals instead of floats. *)
From Coq Require Import List Arith ZArith QArith Qround Bool Lia.
Import ListNotations.
Local Open Scope nat_scope.

(** A returned value or a raised exception. *)
Inductive outcome (A : Type) : Type := Done (a : A) | ValueError | IndexError | TypeError.
Arguments Done {A}. Arguments ValueError {A}. Arguments IndexError {A}. Arguments TypeError {A}.

(** ** Splitting the vector of coefficients *)

(** np.split with a list of positions (used at models.py:1224 and by the likelihoods): slices between consecutive
    positions of 0, idx, length.  Slicing as in python: out of range is cut off. *)
Definition slice {A} (l : list A) (st en : nat) : list A := firstn (en - st) (skipn st l).
Fixpoint np_split_from {A} (l : list A) (st : nat) (idx : list nat) : list (list A) :=
  match idx with
  | [] => [slice l st (length l)]
  | en :: r => slice l st en :: np_split_from l en r
  end.
Definition np_split {A} (l : list A) (idx : list nat) : list (list A) := np_split_from l 0 idx.

(** l[i] = v, in place. *)
Fixpoint set_nth {A} (l : list A) (i : nat) (v : A) : list A :=
  match l, i with
  | [], _ => []
  | _ :: r, O => v :: r
  | x :: r, S j => x :: set_nth r j v
  end.

(** for coef_i in range(1, len(idx)): idx[coef_i] += idx[coef_i - 1], models.py:1072-1073 and :2069-2070. *)
Definition cumulate (idx : list nat) : list nat :=
  fold_left (fun l i => set_nth l i (nth i l 0 + nth (i - 1) l 0)) (seq 1 (length idx - 1)) idx.

(** form_n_coef with the extra coefficients of the family, models.py:1047-1054. *)
Definition form_n_coef (ns : list nat) (extra : option nat) : list nat :=
  match extra with None => ns | Some e => ns ++ [e] end.

(** coef_split_idx, models.py:1069-1073 (GAMMLSS.fit, :2066-2070: no extra coefficients). *)
Definition coef_split_idx (ns : list nat) (extra : option nat) : list nat :=
  let idx := removelast (form_n_coef ns extra) in
  if 1 <? length ns then cumulate idx else idx.

(** ** Start values *)
Section Start.
Variable V : Type.

(** smooth_pen[pen_i].lam = ..., models.py:1032-1036: [i] is pen_i and [n] is the number of penalties left. *)
Fixpoint set_lams (default : V) (init_lambda : option (list V)) (i n : nat) : outcome (list V) :=
  match n with
  | O => Done []
  | S m =>
      match (match init_lambda with
             | None => Done default
             | Some l => match nth_error l i with Some v => Done v | None => IndexError end
             end) with
      | Done v => match set_lams default init_lambda (S i) m with
                  | Done r => Done (v :: r)
                  | ValueError => ValueError | IndexError => IndexError | TypeError => TypeError
                  end
      | ValueError => ValueError | IndexError => IndexError | TypeError => TypeError
      end
  end.

(** What is kept on the model object: the lambdas of self.overall_penalties (None before the first fit) and
    self.coef, models.py:1202-1203. *)
Record stored := { st_lams : option (list V); st_coef : option (list V) }.

(** What the caller and the family provide: arguments init_lambda and init_coef, family.init_lambda(penalties),
    family.init_coef(models). *)
Record given := { init_lambda : option (list V); init_coef : option (list V);
                  fam_lambda : option (list V); fam_coef : option (list V) }.

(** The lambdas the fit starts from, models.py:974-977 and :1002-1039 (GAMMLSS.fit: :2001-2004 and :2023-2049);
    [n_pen] penalties, [default] is 10, or 1 if the method is qEFS. *)
Definition start_lams (restart : bool) (default : V) (n_pen : nat) (s : stored) (g : given) : outcome (list V) :=
  if restart then
    match st_lams s with None => ValueError | Some l => Done l end
  else
    set_lams default (match init_lambda g with None => fam_lambda g | Some l => Some l end) 0 n_pen.

(** The coefficients GSMM.fit starts from, models.py:1058-1067; [rvs] are the random numbers drawn with [seed]. *)
Definition start_coef (rvs : nat -> nat -> list V) (seed n_coef : nat) (restart : bool) (s : stored) (g : given)
  : list V :=
  match (match init_coef g with None => fam_coef g | Some c => Some c end) with
  | Some c => c
  | None => rvs seed n_coef
  end.

(** The coefficients GAMMLSS.fit starts from, models.py:2018-2020 and :2058-2061; there is no argument init_coef. *)
Definition start_coef_gammlss (rvs : nat -> nat -> list V) (seed n_coef : nat) (restart : bool) (s : stored) (g : given)
  : list V :=
  match fam_coef g with Some c => c | None => rvs seed n_coef end.
End Start.

(** ** Columns of the structured quasi-Newton update *)

(** Kinds of terms: linear, impulse response smooth, smooth, factor smooth (class fs), random. *)
Inductive kind := Linear | Impulse | Smooth | FactorSmooth | Random.
(** A term: kind, whether its null space is penalised as well, and coef_idx_per_term. *)
Record term := { t_kind : kind; t_null : bool; t_idx : list nat }.
Record form := { f_coef : nat; f_terms : list term }.

(** get_linear_term_idx, get_ir_smooth_term_idx, get_smooth_term_idx, models.py:1089-1091: fs terms are smooth
    terms as well. *)
Definition is_linear (t : term) := match t_kind t with Linear => true | _ => false end.
Definition is_impulse (t : term) := match t_kind t with Impulse => true | _ => false end.
Definition is_smooth (t : term) := match t_kind t with Smooth | FactorSmooth => true | _ => false end.
Definition is_fs (t : term) := match t_kind t with FactorSmooth => true | _ => false end.

(** The loop over terms of a formula, models.py:1093-1098. *)
Fixpoint add_terms (start : nat) (ts : list term) (fcols : list nat) : list nat :=
  match ts with
  | [] => fcols
  | t :: r => add_terms start r (if is_fs t then fcols else fcols ++ map (fun c => c + start) (t_idx t))
  end.

(** The loop over formulas, models.py:1088-1100; returns fcols and start_idx. *)
Fixpoint add_forms (start : nat) (fs : list form) (fcols : list nat) : list nat * nat :=
  match fs with
  | [] => (fcols, start)
  | f :: r =>
      let ts := f_terms f in
      add_forms (start + f_coef f) r
        (add_terms start (filter is_linear ts ++ filter is_impulse ts ++ filter is_smooth ts) fcols)
  end.

(** All candidates, models.py:1086-1104. *)
Definition candidates (fs : list form) (extra : option nat) : list nat :=
  let '(fcols, start) := add_forms 0 fs [] in
  match extra with None => fcols | Some e => fcols ++ map (fun c => c + start) (seq 0 e) end.

(** structured_qefs_budget: a list, an integer or a float. *)
Inductive budget := Columns (l : list nat) | Number (z : Z) | Share (q : Q).

(** int(q * n) for non-negative q. *)
Definition share_of (q : Q) (n : nat) : nat := Z.to_nat (Qfloor (q * inject_Z (Z.of_nat n))).

(** np.unique: sorted, without duplicates. *)
Fixpoint insert (x : nat) (l : list nat) : list nat :=
  match l with
  | [] => [x]
  | y :: r => if x <? y then x :: l else if x =? y then l else y :: insert x r
  end.
Definition unique (l : list nat) : list nat := fold_right insert [] l.

Section Columns.
(** np_gen.choice(l, size, replace=False) of a generator seeded by the first argument, models.py:1106. *)
Variable choice : nat -> list nat -> nat -> list nat.

(** The draw, models.py:1106-1118: [cols] holds the candidates and [n_coef] is len(coef).  The size handed to the
    generator must be an integer. *)
Definition draw (seed n_coef : nat) (b : budget) (cols : list nat) : outcome (option (list nat)) :=
  let n := length cols in
  let finish l := Done (match l with [] => None | _ => Some l end) in
  match b with
  | Columns l => Done (Some l)
  | Number z =>
      if ((n =? n_coef) && (Z.of_nat n <=? z)%Z)%bool then finish (choice seed cols (n_coef - 1))
      else if (z <? Z.of_nat n)%Z then finish (choice seed cols (Z.to_nat z))
      else finish cols
  | Share q =>
      if Qle_bool q 1 then
        let m := Nat.max 1 (share_of q n) in
        if ((n =? n_coef) && (n <=? m))%bool then finish (choice seed cols (n_coef - 1))
        else if m <? n then finish (choice seed cols m)
        else finish cols
      else
        if ((n =? n_coef) && Qle_bool (inject_Z (Z.of_nat n)) q)%bool then finish (choice seed cols (n_coef - 1))
        else if Qle_bool (inject_Z (Z.of_nat n)) q then finish cols
        else TypeError
  end.

(** structured_qefs_budget > 0, models.py:1084. *)
Definition positive (b : budget) : bool :=
  match b with Columns _ => true | Number z => (0 <? z)%Z | Share q => negb (Qle_bool q 0) end.

(** fcols, models.py:1075-1122. *)
Definition fcols (seed n_coef : nat) (structured : bool) (b : budget) (fs : list form) (extra : option nat)
  : outcome (option (list nat)) :=
  if (structured && positive b)%bool then
    match draw seed n_coef b (candidates fs extra) with
    | Done (Some l) => Done (Some (unique l))
    | o => o
    end
  else Done None.
End Columns.

(** ** Options of the sampled Hessian *)

(** A dictionary with the key n_samples; the remaining keys do not matter here. *)
Definition options := option nat.

(** N_u = max(1, int(usage * N_b)), models.py:1140-1144 and gamm_solvers.py:9613-9617. *)
Definition n_updates (usage : Q) (n_coef : nat) (cols : option (list nat)) : nat :=
  let N_b := match cols with None => n_coef | Some l => n_coef - length l end in
  Nat.max 1 (share_of usage N_b).

(** What a fit uses: number of sampled vectors per update of lambda and (if re-sampled) for the last Hessian. *)
Record used := { u_fit : nat; u_final : nat }.

(** One call of fit with method qEFS, models.py:1140-1157, :1194 and gamm_solvers.py:7337, :8406, :9604-9618.  The
    dictionary is passed on as an object: [user] is the content of the caller's dictionary before (None if the argument
    is None) and the second result its content afterwards.  [final] is qEFS_final_memory_usage; if it is None the number in
    the dictionary stays as it is. *)
Definition fit_options (n_coef : nat) (cols : option (list nat)) (usage : Q) (final : option Q) (user : option options)
  : used * option options :=
  let o := match user with None => None | Some o => o end in
  let n := match o with None => n_updates usage n_coef cols | Some n => n end in
  let m := match final with None => n | Some q => n_updates q n_coef cols end in
  ({| u_fit := n; u_final := m |}, match user with None => None | Some _ => Some (Some m) end).

(** ** Rows of responses and of model matrices *)
Section Rows.
Variables Y C X : Type.

(** A formula: name of the response, whether a transformation is applied to it, the column of responses (None is NaN),
    whether it has impulse response terms, the covariates, and how the model matrix is built from rows. *)
Record lhs := { v_name : nat; v_f : option (list (option Y) -> list (option Y)); v_y : list (option Y);
                v_irf : bool; v_cov : list C; v_rows : list C -> list X }.

(** NOT_NA_flat, formula.py:616: responses of this formula that are not NaN. *)
Definition not_na (l : lhs) : list bool := map (fun y => match y with None => false | Some _ => true end) (v_y l).

(** a[mask]. *)
Fixpoint masked {A} (l : list A) (mask : list bool) : list A :=
  match l, mask with
  | a :: r, b :: m => if b then a :: masked r m else masked r m
  | _, _ => []
  end.

(** The response of one formula, models.py:374-385. *)
Definition get_y (drop_NA : bool) (l : lhs) : list (option Y) :=
  let y := if drop_NA then masked (v_y l) (not_na l) else v_y l in
  match v_f l with None => y | Some f => f y end.

(** The test at models.py:363-369. *)
Definition same_as_first (first l : lhs) : bool :=
  ((v_name l =? v_name first) && match v_f l with None => true | _ => false end
   && match v_f first with None => true | _ => false end)%bool.

(** get_ys with par=None, models.py:351-391. *)
Definition get_ys (drop_NA : bool) (ls : list lhs) : list (option (list (option Y))) :=
  match ls with
  | [] => []
  | first :: r =>
      Some (get_y drop_NA first)
      :: map (fun l => if same_as_first first l then None else Some (get_y drop_NA l)) r
  end.

(** get_mmat for one formula, models.py:465-497: rows are dropped before or after the matrix is built. *)
Definition get_mmat (drop_NA : bool) (l : lhs) : list X :=
  if v_irf l then
    if drop_NA then masked (v_rows l (v_cov l)) (not_na l) else v_rows l (v_cov l)
  else v_rows l (if drop_NA then masked (v_cov l) (not_na l) else v_cov l).
End Rows.
